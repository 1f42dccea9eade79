(** C113: corrections of a UKF whose system model overrides addVectors and subtractVectors, as SixDRates does. *)
From mathcomp Require Import all_ssreflect all_algebra.
From Verif Require Import Outcome McRing LinAlg KF_Algebra KF_Model UKF_Model UKF_Chol UKF_Lemmas UKF_Algebra Props_UKF.
Set Implicit Arguments.
Unset Strict Implicit.
Unset Printing Implicit Defensive.
Import GRing.Theory Num.Theory Order.TTheory.
Local Open Scope ring_scope.

Section Any.
Variables (R : rcfType) (T : Type) (n m p k : nat).
Variables (S : NonlinSys R T n m p) (M : NonlinMeas R T n k).
Hypothesis dM : default_meas M.
Variables (alpha kappa beta : R) (par : UKFPar R).
Hypothesis hpar : set_sigma n alpha kappa beta = Ok par.
Let c : R := n%:R + up_lambda par.
Let w : R := 1 / 2%:R / c.

(** the shape of a correction, whatever addVectors and subtractVectors of the system model do *)
Lemma correct_shape_any (o : sm S) (q : mm M) (x : 'cV[R]_n) (P : 'M[R]_n) z dt (J J1 : mm M -> Prop) (Q : 'cV[R]_n -> 'cV[R]_k -> Prop) :
  J q -> (forall (q : mm M) y, J q -> exists q', mm_upd q y dt = Ok q' /\ (J q' /\ J1 q') /\ Q y (nm_h q')) ->
  exists (q1 q' : mm M) (yh yl : 'I_n -> 'cV[R]_k),
  let L := llt_L (c *: P) in
  let hi i := sm_add o x (col i L) in let lo i := sm_sub o x (col i L) in
  let h i := yh i - nm_h q1 in let l i := yl i - nm_h q1 in let mu := w *: (\sum_i (h i + l i)) in
  let Sg := mm_cov q' + (w *: (\sum_i (h i *m (h i)^T + l i *m (l i)^T)) + (beta - alpha ^+ 2) *: (mu *m mu^T)) in
  let X := ((c - n%:R) / c + 1 - alpha ^+ 2 + beta) *: (sm_sub o x x *m (- mu)^T)
         + w *: (\sum_i (sm_sub o (hi i) x *m (h i - mu)^T + sm_sub o (lo i) x *m (l i - mu)^T)) in
  [/\ mm_upd q x dt = Ok q1 /\ Q x (nm_h q1), forall i, Q (hi i) (yh i), forall i, Q (lo i) (yl i), J q' /\ J1 q' &
    ukf_correct par o q x P z dt =
      (let* inv := inverse Sg in Ok (q', sm_add o x ((X *m inv) *m (z - (nm_h q1 + mu))), P - (X *m inv) *m Sg *m (X *m inv)^T))].
Proof.
move=> jq ht; set L := llt_L (c *: P); have [q1 [e1 [j1 h1]]] := ht q x jq; exists q1.
set hi := fun i => sm_add o x (col i L); set lo := fun i => sm_sub o x (col i L).
rewrite /ukf_correct -/c -/L /meas_eval e1; cbn [Outcome.obind]; rewrite (wr0 hpar); cbn [Outcome.obind].
have [|||q2 [c2 el]] := @sigma_loop_total ('cV[R]_n * 'cV[R]_k)%type _ n
   (fun (q : mm M) i => let* q1 := mm_upd q (hi i) dt in Ok (q1, (hi i, nm_h q1)))
   (fun (q : mm M) i => let* q1 := mm_upd q (lo i) dt in Ok (q1, (lo i, nm_h q1))) (fun q => J q /\ J1 q) q1 (x, nm_h q1).
- by [].
- by move=> q3 i [j3 _]; have [q4 [-> [j4 _]]] := ht q3 (hi i) j3; do 2 eexists.
- by move=> q3 i [j3 _]; have [q4 [-> [j4 _]]] := ht q3 (lo i) j3; do 2 eexists.
rewrite el /=.
have [|||yh [yl [-> j2 qh ql]]] := @sigma_loop_run ('cV[R]_n * 'cV[R]_k)%type _ n _ _ (fun q => J q /\ J1 q) (fun i y => y.1 = hi i /\ Q (hi i) y.2)
   (fun i y => y.1 = lo i /\ Q (lo i) y.2) _ _ _ _ _ _ _ el.
- by move=> q3 i q4 y [j3 _]; have [q5 [-> [j5 h5]]] := ht q3 (hi i) j3; move=> [<- <-].
- by move=> q3 i q4 y [j3 _]; have [q5 [-> [j5 h5]]] := ht q3 (lo i) j3; move=> [<- <-].
- by [].
exists q2, (fun i => (yh i).2), (fun i => (yl i).2).
have [_ _ nz em ec] := set_sigma_ok hpar; rewrite -/c -/w in nz em ec.
have [ds dw] := dM q2.
have lE : up_lambda par = c - n%:R by rewrite /c addrC addKr.
set h := fun i => (yh i).2 - nm_h q1; set l := fun i => (yl i).2 - nm_h q1.
set mu := w *: (\sum_i (((yh i).2 - _) + _)); set Sg := mm_cov q2 + _; set X := _ *: _ + _.
split => //; try by move=> i; have [] := qh i. 
  by move=> i; have [] := ql i.
rewrite /=.
have zE : mm_wsum q2 (up_wm par) [seq y.2 | y <- columns (x, nm_h q1) yh yl] = nm_h q1 + mu.
  have -> : [seq y.2 | y <- columns (x, nm_h q1) yh yl] = columns (nm_h q1) (fun i => (yh i).2) (fun i => (yl i).2).
    by rewrite /columns /= map_cat -!map_comp.
  rewrite dw em wsum_columns lE; exact: ut_mean.
rewrite zE ec ds /sub_default.
have sh y : y - (nm_h q1 + mu) = (y - nm_h q1) - mu by rewrite opprD addrA.
have SE : wcov (mm_cov q2) ((up_lambda par / c + 1 - alpha ^+ 2 + beta) :: nseq (2 * n) w)
     [seq (y.2 - (nm_h q1 + mu), y.2 - (nm_h q1 + mu)) | y <- columns (x, nm_h q1) yh yl] = Sg.
  rewrite (wcov_columns _ _ _ (fun y => y.2 - (nm_h q1 + mu)) (fun y => y.2 - (nm_h q1 + mu))) /Sg; congr (_ + _).
  have <- := @ut_cov R k k n c alpha beta nz h l h l; rewrite -/w -/mu lE /=.
  congr (_ *: _ + _ *: _); first by rewrite !sh subrr sub0r.
  by apply: eq_bigr => i _; rewrite !sh.
have XE : wcov 0 ((up_lambda par / c + 1 - alpha ^+ 2 + beta) :: nseq (2 * n) w)
     [seq (sm_sub o y.1 x, y.2 - (nm_h q1 + mu)) | y <- columns (x, nm_h q1) yh yl] = X.
  rewrite (wcov_columns _ _ _ (fun y => sm_sub o y.1 x) (fun y => y.2 - (nm_h q1 + mu))) add0r /= /X lE.
  congr (_ *: (_ *m _^T) + _ *: _); first by rewrite sh subrr sub0r.
  by apply: eq_bigr => i _; have [-> _] := qh i; have [-> _] := ql i; rewrite !sh.
by rewrite SE XE.
Qed.

(** ** C113, the part that holds: the correction is defined, the covariance stays symmetric and does not grow *)
Theorem C113_correct_partial (J : mm M -> Prop) (o : sm S) (q : mm M) x P z dt :
  J q -> (forall (q : mm M) y, J q -> exists q', mm_upd q y dt = Ok q' /\ J q' /\ pd (mm_cov q')) ->
  0 < alpha ^+ 2 * (n%:R + kappa) -> alpha ^+ 2 <= beta ->
  exists q' x' P', ukf_correct par o q x P z dt = Ok (q', x', P') /\ J q' /\ (sym P -> sym P') /\ lle P' P.
Proof.
move=> jq ht hc hb; have [c0 w0] := cw hpar hc.
have [||q1 [q' [yh [yl]]]] := @correct_shape_any o q x P z dt J (fun q => pd (mm_cov q)) (fun _ _ => True) => //.
  by move=> q0 y j0; have [q2 [h1 [h2 h3]]] := ht q0 y j0; exists q2.
cbv zeta; set L := llt_L (c *: P); set mu := w *: _; set Sg := mm_cov q' + _; set X := _ *: _ + _.
move=> [e1 _ _ [jq' pQ] ->].
have pS : pd Sg.
  rewrite /Sg addrC; apply: psd_pdD => //; apply: psdD; last by apply: psdZ; [rewrite subr_ge0|exact: psd_outer].
  by apply: psdZ; [exact: ltW|apply: psd_sum => i; apply: psdD; exact: psd_outer].
have uS := pd_unit pS; have [sS hS] := pS.
rewrite /inverse uS; cbn [Outcome.obind]; do 3 eexists; split; first reflexivity.
set K := X *m invmx Sg; have pK : psd (K *m Sg *m K^T) by apply: psd_congr; exact: pd_psd.
split => //; split; first by move=> sP; have [s _] := pK; rewrite /sym linearB /= sP s.
by rewrite /lle opprB addrC subrK.
Qed.
End Any.
