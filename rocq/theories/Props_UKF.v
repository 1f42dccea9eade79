(** C49 - C51: the sigma point weights, and one prediction / correction of the UKF. *)
From mathcomp Require Import all_ssreflect all_algebra.
From Verif Require Import Outcome McRing LinAlg KF_Algebra KF_Model UKF_Model UKF_Chol UKF_Lemmas UKF_Algebra Props_KF.
Set Implicit Arguments.
Unset Strict Implicit.
Unset Printing Implicit Defensive.
Import GRing.Theory Num.Theory Order.TTheory.
Local Open Scope ring_scope.

(** ** C49 *)
Section C49.
Variable R : rcfType.
Add Field Rfield : (mc_field R).
Lemma sum_nseq (a : R) k : \sum_(x <- nseq k a) x = k%:R * a.
Proof. by elim: k => [|k IH]; rewrite ?big_nil ?mul0r //= big_cons IH -addn1 natrD mulrDl mul1r addrC. Qed.

Theorem C49_weights n (alpha kappa beta : R) : alpha ^+ 2 * (n%:R + kappa) != 0 ->
  exists par, set_sigma n alpha kappa beta = Ok par
   /\ size (up_wm par) = (2 * n + 1)%N /\ size (up_wc par) = (2 * n + 1)%N /\ up_num par = (2 * n + 1)%N
   /\ \sum_(w <- up_wm par) w = 1 /\ \sum_(w <- up_wc par) w = 2%:R - alpha ^+ 2 + beta
   /\ (forall i, (0 < i < 2 * n + 1)%N ->
         nth 0 (up_wm par) i = 1 / (2%:R * (alpha ^+ 2 * (n%:R + kappa))) /\ nth 0 (up_wc par) i = nth 0 (up_wm par) i).
Proof.
move=> h; have [par e] := set_sigma_total beta h; exists par; split => //.
have [en el nz em ec] := set_sigma_ok e.
rewrite em ec /= size_nseq addn1; split => //; split => //; split; first by rewrite en addn1.
have lE : up_lambda par = (n%:R + up_lambda par) - n%:R by rewrite addrC addKr.
split; first by rewrite big_cons sum_nseq {1}lE; exact: wm_sum.
split; first by rewrite big_cons sum_nseq {1}lE; exact: wc_sum.
case=> [|i] //= hi; rewrite !nth_nseq ltnS in hi *; rewrite hi el; split => //.
by rewrite -mulrA -invfM; congr (_ / _); rewrite mulrC.
Qed.
(** the defaults 0.001, 0, 2 *)
Theorem C49_default n : (0 < n)%N -> exists par : UKFPar R, default_sigma R n = Ok par /\ \sum_(w <- up_wm par) w = 1.
Proof.
move=> h; have [|par [e [_ [_ [_ [s _]]]]]] := @C49_weights n (1 / 1000%:R) 0 2%:R; last by exists par.
by rewrite addr0 mulf_neq0 ?expf_neq0 ?mulf_neq0 ?oner_neq0 ?invr_eq0 ?pnatr_eq0 // -lt0n.
Qed.
End C49.

(** default vector operations (filter_model.cpp:87-106) *)
Definition default_sys (R : rcfType) T n m p (S : SysI R T n m p) : Prop := forall o : sm S,
  sm_add o = @add_default R n /\ sm_sub o = @sub_default R n /\ sm_wsum o = @wsum_default R n.
Definition default_meas (R : rcfType) T n k (M : MeasI R T n k) : Prop := forall q : mm M,
  mm_sub q = @sub_default R k /\ mm_wsum q = @wsum_default R k.

Section Predict.
Variables (R : rcfType) (T : Type) (n m p : nat).
Add Field Rfield : (mc_field R).
Variable S : NonlinSys R T n m p.
Hypothesis dS : default_sys S.
Variables (alpha kappa beta : R) (par : UKFPar R).
Hypothesis hpar : set_sigma n alpha kappa beta = Ok par.
Let c : R := n%:R + up_lambda par.
Let w : R := 1 / 2%:R / c.

Lemma wr0 A (y : A) : wr (nseq (up_num par) None) 0 y = Ok (Some y :: nseq (2 * n) None).
Proof. by have [-> _ _ _ _] := set_sigma_ok hpar; rewrite addn1. Qed.

(** the shape of a prediction, for arbitrary sigma points; J is an invariant of the model object *)
Lemma predict_shape (o : sm S) x P u dt (o' : sm S) x' P' (J J1 : sm S -> Prop) (Q : 'cV[R]_n -> 'cV[R]_n -> Prop) :
  J o -> (forall (o : sm S) y o1, J o -> sm_upd o y u dt = Ok o1 -> (J o1 /\ J1 o1) /\ Q y (ns_g o1)) ->
  ukf_predict par o x P u dt = Ok (o', x', P') ->
  let L := llt_L (c *: P) in
  exists (o1 : sm S) (yh yl : 'I_n -> 'cV[R]_n), [/\ sm_upd o x u dt = Ok o1, forall i, Q (x + col i L) (yh i), forall i, Q (x - col i L) (yl i), J o' /\ J1 o' &
    let h i := yh i - ns_g o1 in let l i := yl i - ns_g o1 in let mu := w *: (\sum_i (h i + l i)) in
    x' = ns_g o1 + mu /\
    P' = noise o' + (w *: (\sum_i (h i *m (h i)^T + l i *m (l i)^T)) + (beta - alpha ^+ 2) *: (mu *m mu^T))].
Proof.
move=> jo hJ; rewrite /ukf_predict -/c /sys_eval; case e0: (sm_upd o x u dt) => [o1|//] /=.
rewrite wr0 /=; case el: (sigma_loop _ _ _) => [[o2 c2]|//] /=.
set L := llt_L _ in el *.
have [|||yh [yl [-> j2 qh ql]]] := @sigma_loop_run _ _ n _ _ (fun o => J o /\ J1 o) (fun i => Q (x + col i L)) (fun i => Q (x - col i L)) _ _ _ _ _ _ _ el.
- move=> o3 i o4 y [j3 _]; case e3: (sm_upd _ _ _ _) => [o5|//] /= [<- <-].
  by have [j5 q5] := hJ _ _ _ j3 e3; split => //; move: q5; have [-> _] := dS o3.
- move=> o3 i o4 y [j3 _]; case e3: (sm_upd _ _ _ _) => [o5|//] /= [<- <-].
  by have [j5 q5] := hJ _ _ _ j3 e3; split => //; move: q5; have [_ [-> _]] := dS o3.
- by have [] := hJ _ _ _ jo e0.
have [_ el' nz em ec] := set_sigma_ok hpar.
have [_ [ds dw]] := dS o2.
have lE : up_lambda par = c - n%:R by rewrite /c addrC addKr.
move=> /= [<- <- <-]; exists o1, yh, yl; split => //=.
have xE : sm_wsum o2 (up_wm par) (columns (ns_g o1) yh yl)
   = ns_g o1 + w *: (\sum_i ((yh i - ns_g o1) + (yl i - ns_g o1))).
  rewrite dw em -/c -/w wsum_columns lE; exact: ut_mean.
rewrite xE; split=> //.
rewrite ec -/c -/w -/(noise o2).
set mu := w *: _; set sb := sm_sub o2.
rewrite (wcov_columns _ _ _ (fun y => sb y (ns_g o1 + mu)) (fun y => sb y (ns_g o1 + mu))); congr (_ + _); rewrite /mu.
set h := fun i => yh i - ns_g o1; set l := fun i => yl i - ns_g o1.
have <- := @ut_cov R n n n c alpha beta nz h l h l.
rewrite /sb ds lE /sub_default -/w -/h -/l; clear mu; set mu := w *: _.
have sh y : y - (ns_g o1 + mu) = (y - ns_g o1) - mu by rewrite opprD addrA.
congr (_ *: _ + _ *: _); first by rewrite !sh subrr sub0r.
by apply: eq_bigr => i _; rewrite !sh.
Qed.

Lemma predict_total (o : sm S) x P u dt (J : sm S -> Prop) : J o -> (forall (o : sm S) y, J o -> exists o', sm_upd o y u dt = Ok o' /\ J o') ->
  exists o' x' P', ukf_predict par o x P u dt = Ok (o', x', P').
Proof.
move=> jo ht; rewrite /ukf_predict /sys_eval; have [o1 [-> j1]] := ht o x jo; rewrite /= wr0 /=.
have [||| o2 [c2 el]] := @sigma_loop_total _ _ n (fun (o : sm S) i => let* o1 := sm_upd o (sm_add o x (col i (llt_L ((n%:R + up_lambda par) *: P)))) u dt in Ok (o1, ns_g o1))
   (fun (o : sm S) i => let* o1 := sm_upd o (sm_sub o x (col i (llt_L ((n%:R + up_lambda par) *: P)))) u dt in Ok (o1, ns_g o1)) J o1 (ns_g o1).
- by [].
- by move=> o3 i j3; have [o4 [-> j4]] := ht o3 (sm_add o3 x (col i (llt_L ((n%:R + up_lambda par) *: P)))) j3; do 2 eexists.
- by move=> o3 i j3; have [o4 [-> j4]] := ht o3 (sm_sub o3 x (col i (llt_L ((n%:R + up_lambda par) *: P)))) j3; do 2 eexists.
rewrite el /=.
have [||//|yh [yl [-> _ _ _]]] := @sigma_loop_run _ _ n _ _ (fun _ => True) (fun _ _ => True) (fun _ _ => True) _ _ _ _ _ _ _ el => //.
by move=> /=; eexists _, _, _.
Qed.

(** ** C51, prediction: any function, any sigma points *)
Theorem C51_predict (o : sm S) x P u dt (o' : sm S) x' P' : 0 < alpha ^+ 2 * (n%:R + kappa) -> alpha ^+ 2 <= beta ->
  ukf_predict par o x P u dt = Ok (o', x', P') -> psd (sm_Rp o') -> psd (sm_Rc o') -> psd P'.
Proof.
move=> hc hb e pp pc; have [||o1 [yh [yl [_ _ _ _ [_ ->]]]]] := @predict_shape _ _ _ _ _ _ _ _ (fun _ => True) (fun _ => True) (fun _ _ => True) _ _ e => //.
have w0 : 0 <= w.
  have [_ cE _ _ _] := set_sigma_ok hpar.
  by rewrite /w /c cE !mulr_ge0 ?invr_ge0 ?ler01 ?ler0n // ltW.
do 2 apply: psdD; try exact: psd_congr.
  by apply: psdZ => //; apply: psd_sum => i; apply: psdD; exact: psd_outer.
by apply: psdZ; [rewrite subr_ge0|exact: psd_outer].
Qed.
(** ... and positive definite if the noise is *)
Theorem C51_predict_pd (o : sm S) x P u dt (o' : sm S) x' P' : 0 < alpha ^+ 2 * (n%:R + kappa) -> alpha ^+ 2 <= beta ->
  ukf_predict par o x P u dt = Ok (o', x', P') ->
  pd (sm_P o' *m sm_Rp o' *m (sm_P o')^T + sm_V o' *m sm_Rc o' *m (sm_V o')^T) -> pd P'.
Proof.
move=> hc hb e pN; have [||o1 [yh [yl [_ _ _ _ [_ ->]]]]] := @predict_shape _ _ _ _ _ _ _ _ (fun _ => True) (fun _ => True) (fun _ _ => True) _ _ e => //.
have w0 : 0 <= w.
  have [_ cE _ _ _] := set_sigma_ok hpar.
  by rewrite /w /c cE !mulr_ge0 ?invr_ge0 ?ler01 ?ler0n // ltW.
rewrite addrC; apply: psd_pdD => //; apply: psdD.
  by apply: psdZ => //; apply: psd_sum => i; apply: psdD; exact: psd_outer.
by apply: psdZ; [rewrite subr_ge0|exact: psd_outer].
Qed.
Theorem C51_predict_defined (o : sm S) x P u dt (J : sm S -> Prop) :
  J o -> (forall (o : sm S) y, J o -> exists o', sm_upd o y u dt = Ok o' /\ J o') ->
  exists o' x' P', ukf_predict par o x P u dt = Ok (o', x', P').
Proof. exact: predict_total. Qed.

Lemma w_cov (P : 'M[R]_n) : 0 < alpha ^+ 2 * (n%:R + kappa) -> pd P ->
  let L := llt_L (c *: P) in w *: (\sum_i (col i L *m (col i L)^T + col i L *m (col i L)^T)) = P.
Proof.
move=> hc pP L; have [_ cE nz _ _] := set_sigma_ok hpar.
have pcP : pd (c *: P) by apply: pdZ => //; rewrite /c cE.
have LL : \sum_i col i L *m (col i L)^T = c *: P.
  rewrite -(llt_correct pcP) -/L; apply/matrixP => i j; rewrite summxE !mxE.
  by apply: eq_bigr => l _; rewrite !mxE big_ord1 !mxE.
have -> : \sum_i (col i L *m (col i L)^T + col i L *m (col i L)^T) = 2%:R *: (c *: P).
  by rewrite big_split /= LL -{1}[c *: P]scale1r -{2}[c *: P]scale1r -scalerDl.
have n2 : (2%:R : R) != 0 by rewrite pnatr_eq0.
rewrite !scalerA -[RHS]scale1r; congr (_ *: _); rewrite /w.
by rewrite mulrAC divfK // divfK.
Qed.

(** ** C50, prediction.  J is any invariant of the model object under update() at arbitrary points:
    in the states it allows, the model is affine. *)
Theorem C50_predict (A : 'M[R]_n) (b : 'cV[R]_n) (J : sm S -> Prop) (o : sm S) x P u dt :
  J o -> (forall (o : sm S) y, J o -> exists o', sm_upd o y u dt = Ok o' /\ J o' /\ ns_g o' = A *m y + b) ->
  pd P -> 0 < alpha ^+ 2 * (n%:R + kappa) ->
  exists o', J o' /\ ukf_predict par o x P u dt = Ok (o', A *m x + b, A *m P *m A^T + sm_P o' *m sm_Rp o' *m (sm_P o')^T + sm_V o' *m sm_Rc o' *m (sm_V o')^T).
Proof.
move=> jo hg pP hc.
have [||o' [x' [P' e]]] := @predict_total o x P u dt J => //.
  by move=> o1 y j1; have [o2 [h [j2 _]]] := hg o1 y j1; exists o2.
exists o'; rewrite e.
set L := llt_L (c *: P).
have [||o1 [yh [yl [e1 qh ql [jo' _]]]]] := @predict_shape _ _ _ _ _ _ _ _ J (fun _ => True) (fun y g => g = A *m y + b) _ _ e => //.
  by move=> o1 y o2 j1 h; have [o3 [h3 [j3 hgo]]] := hg o1 y j1; move: h; rewrite h3 => -[<-].
rewrite -/L in qh ql; move=> hx; split => //; move: hx.
have g1 : ns_g o1 = A *m x + b by have [o3 [h3 [_ hgo]]] := hg o x jo; move: e1; rewrite h3 => -[<-].
have eh i : yh i - ns_g o1 = A *m col i L by rewrite qh g1 mulmxDr; mxgroup R.
have el i : yl i - ns_g o1 = - (A *m col i L) by rewrite ql g1 mulmxBr; mxgroup R.
have m0 : \sum_i ((yh i - ns_g o1) + (yl i - ns_g o1)) = 0 by apply: big1 => i _; rewrite eh el subrr.
move=> /= [-> ->]; rewrite m0 scaler0 mul0mx scaler0 !addr0 g1; congr (Ok (_, _, _)).
rewrite -addrA -/(noise o') addrC; congr (_ + _).
rewrite -[in RHS](w_cov hc pP) -/L -scalemxAr -scalemxAl mulmx_sumr mulmx_suml; congr (_ *: _).
apply: eq_bigr => i _; rewrite -g1 eh el linearN /= mulNmx mulmxN opprK trmx_mul mulmxDr mulmxDl.
by rewrite !mulmxA.
Qed.
(** ... so it is the EKF prediction if the noise does not depend on the point of linearisation *)
Theorem C50_predict_ekf (A : 'M[R]_n) (b : 'cV[R]_n) (W : 'M[R]_n) (J : sm S -> Prop) (o : sm S) x P u dt :
  J o -> (forall (o : sm S) y, J o -> exists o', sm_upd o y u dt = Ok o' /\ J o' /\ ns_g o' = A *m y + b /\ ns_G o' = A
      /\ sm_P o' *m sm_Rp o' *m (sm_P o')^T + sm_V o' *m sm_Rc o' *m (sm_V o')^T = W) ->
  pd P -> 0 < alpha ^+ 2 * (n%:R + kappa) ->
  est2 (ukf_predict par o x P u dt) = est2 (ekf_predict o x P u dt).
Proof.
move=> jo hg pP hc.
have [|o' [jo' e]] := @C50_predict A b J o x P u dt jo _ pP hc.
  by move=> o0 y j0; have [o2 [h [h1 [h2 _]]]] := hg o0 y j0; exists o2.
have [||o1 [yh [yl [_ _ _ [_ nW] _]]]] := @predict_shape _ _ _ _ _ _ _ _ J (fun o => noise o = W) (fun _ _ => True) _ _ e => //.
  by move=> o1 y o2 j1 h; have [o3 [h3 [j3 [_ [_ hw]]]]] := hg o1 y j1; move: h; rewrite h3 => -[<-].
have [o2 [e2 [j2 [g2 [G2 n2]]]]] := hg o x jo.
rewrite e /ekf_predict e2 /= g2 G2 -!addrA n2; congr (Ok (_, _ + _)); exact: nW.
Qed.
End Predict.

Section Correct.
Variables (R : rcfType) (T : Type) (n m p k : nat).
Add Field Rfield : (mc_field R).
Variables (S : NonlinSys R T n m p) (M : NonlinMeas R T n k).
Hypothesis dS : default_sys S.
Hypothesis dM : default_meas M.
Variables (alpha kappa beta : R) (par : UKFPar R).
Hypothesis hpar : set_sigma n alpha kappa beta = Ok par.
Let c : R := n%:R + up_lambda par.
Let w : R := 1 / 2%:R / c.

(** the shape of a correction *)
Lemma correct_shape (o : sm S) (q : mm M) (x : 'cV[R]_n) (P : 'M[R]_n) z dt (J J1 : mm M -> Prop) (Q : 'cV[R]_n -> 'cV[R]_k -> Prop) :
  J q -> (forall (q : mm M) y, J q -> exists q', mm_upd q y dt = Ok q' /\ (J q' /\ J1 q') /\ Q y (nm_h q')) ->
  exists (q1 q' : mm M) (yh yl : 'I_n -> 'cV[R]_k),
  let L := llt_L (c *: P) in
  let h i := yh i - nm_h q1 in let l i := yl i - nm_h q1 in let mu := w *: (\sum_i (h i + l i)) in
  let Sg := mm_cov q' + (w *: (\sum_i (h i *m (h i)^T + l i *m (l i)^T)) + (beta - alpha ^+ 2) *: (mu *m mu^T)) in
  let X := w *: (\sum_i (col i L *m (h i)^T + (- col i L) *m (l i)^T)) in
  [/\ mm_upd q x dt = Ok q1, forall i, Q (x + col i L) (yh i), forall i, Q (x - col i L) (yl i), J q' /\ J1 q' &
    ukf_correct par o q x P z dt =
      (let* inv := inverse Sg in Ok (q', x + (X *m inv) *m (z - (nm_h q1 + mu)), P - (X *m inv) *m Sg *m (X *m inv)^T))].
Proof.
move=> jq ht; set L := llt_L (c *: P); have [q1 [e1 [j1 _]]] := ht q x jq; exists q1.
have [aS [sS _]] := dS o.
rewrite /ukf_correct -/c -/L /meas_eval e1 /= (wr0 hpar) /= aS sS /add_default /sub_default.
have [|||q2 [c2 el]] := @sigma_loop_total ('cV[R]_n * 'cV[R]_k)%type _ n
   (fun (q : mm M) i => let* q1 := mm_upd q (x + col i L) dt in Ok (q1, (x + col i L, nm_h q1)))
   (fun (q : mm M) i => let* q1 := mm_upd q (x - col i L) dt in Ok (q1, (x - col i L, nm_h q1))) (fun q => J q /\ J1 q) q1 (x, nm_h q1).
- by [].
- by move=> q3 i [j3 _]; have [q4 [-> [j4 _]]] := ht q3 (x + col i L) j3; do 2 eexists.
- by move=> q3 i [j3 _]; have [q4 [-> [j4 _]]] := ht q3 (x - col i L) j3; do 2 eexists.
rewrite el /=.
have [|||yh [yl [-> j2 qh ql]]] := @sigma_loop_run ('cV[R]_n * 'cV[R]_k)%type _ n _ _ (fun q => J q /\ J1 q) (fun i y => y.1 = x + col i L /\ Q (x + col i L) y.2)
   (fun i y => y.1 = x - col i L /\ Q (x - col i L) y.2) _ _ _ _ _ _ _ el.
- by move=> q3 i q4 y [j3 _]; have [q5 [-> [j5 h5]]] := ht q3 (x + col i L) j3; move=> [<- <-].
- by move=> q3 i q4 y [j3 _]; have [q5 [-> [j5 h5]]] := ht q3 (x - col i L) j3; move=> [<- <-].
- by [].
exists q2, (fun i => (yh i).2), (fun i => (yl i).2).
have [_ _ nz em ec] := set_sigma_ok hpar; rewrite -/c -/w in nz em ec.
have [ds dw] := dM q2.
have lE : up_lambda par = c - n%:R by rewrite /c addrC addKr.
set h := fun i => (yh i).2 - nm_h q1; set l := fun i => (yl i).2 - nm_h q1.
set mu := w *: (\sum_i (((yh i).2 - _) + _)); set Sg := mm_cov q2 + _; set X := w *: (\sum_i (col i L *m _ + _)).
split => //; try by move=> i; have [] := qh i. 
  by move=> i; have [] := ql i.
rewrite /=.
have zE : mm_wsum q2 (up_wm par) [seq y.2 | y <- columns (x, nm_h q1) yh yl] = nm_h q1 + mu.
  have -> : [seq y.2 | y <- columns (x, nm_h q1) yh yl] = columns (nm_h q1) (fun i => (yh i).2) (fun i => (yl i).2).
    by rewrite /columns /= map_cat -!map_comp.
  rewrite dw em wsum_columns lE; exact: ut_mean.
rewrite zE ec ds /sub_default.
have sh y : y - (nm_h q1 + mu) = (y - nm_h q1) - mu by rewrite opprD addrA.
have SE : wcov (mm_cov q2) ((up_lambda par / c + 1 - alpha ^+ 2 + beta) :: nseq (2 * n) w)
     [seq (y.2 - (nm_h q1 + mu), y.2 - (nm_h q1 + mu)) | y <- columns (x, nm_h q1) yh yl] = Sg.
  rewrite (wcov_columns _ _ _ (fun y => y.2 - (nm_h q1 + mu)) (fun y => y.2 - (nm_h q1 + mu))) /Sg; congr (_ + _).
  have <- := @ut_cov R k k n c alpha beta nz h l h l; rewrite -/w -/mu lE /=.
  congr (_ *: _ + _ *: _); first by rewrite !sh subrr sub0r.
  by apply: eq_bigr => i _; rewrite !sh.
have XE : wcov 0 ((up_lambda par / c + 1 - alpha ^+ 2 + beta) :: nseq (2 * n) w)
     [seq (y.1 - x, y.2 - (nm_h q1 + mu)) | y <- columns (x, nm_h q1) yh yl] = X.
  rewrite (wcov_columns _ _ _ (fun y => y.1 - x) (fun y => y.2 - (nm_h q1 + mu))) add0r /=.
  have s0 : \sum_i (col i L + - col i L) = 0 by apply: big1 => i _; rewrite subrr.
  have <- : _ = X := @ut_cross R n k n c (fun i => col i L) (fun i => - col i L) h l mu (up_lambda par / c + 1 - alpha ^+ 2 + beta) s0.
  rewrite subrr -/w sh subrr sub0r; congr (_ *: _ + _ *: _); apply: eq_bigr => i _.
  have [-> _] := qh i; have [-> _] := ql i; rewrite !sh -/(h i) -/(l i).
  by rewrite [x + _]addrC addrK [x - _]addrC addrK.
by rewrite SE XE.
Qed.

Lemma cw : 0 < alpha ^+ 2 * (n%:R + kappa) -> 0 < c /\ 0 < w.
Proof.
move=> hc; have [_ cE _ _ _] := set_sigma_ok hpar.
by rewrite /w /c cE hc !mulr_gt0 ?invr_gt0 ?ltr01 ?ltr0n.
Qed.

(** ** C50, correction: exactly the Kalman correction *)
Theorem C50_correct (C : 'M[R]_(k, n)) (d : 'cV[R]_k) (Q : 'M[R]_k) (J : mm M -> Prop) (o : sm S) (q : mm M) x P z dt :
  J q -> (forall (q : mm M) y, J q -> exists q', mm_upd q y dt = Ok q' /\ J q' /\ mm_cov q' = Q /\ nm_h q' = C *m y + d) ->
  pd P -> pd Q -> 0 < alpha ^+ 2 * (n%:R + kappa) ->
  let K := P *m C^T *m invmx (C *m P *m C^T + Q) in
  exists q', ukf_correct par o q x P z dt = Ok (q', x + K *m (z - (C *m x + d)), (1%:M - K *m C) *m P).
Proof.
move=> jq ht pP pQ hc K.
have [||q1 [q' [yh [yl]]]] := @correct_shape o q x P z dt J (fun q => mm_cov q = Q) (fun y e => e = C *m y + d) => //.
  by move=> q0 y j0; have [q2 [h1 [h2 [h3 h4]]]] := ht q0 y j0; exists q2.
set L := llt_L (c *: P) => /= -[e1 qh ql [_ cQ] ->].
have [q2 [e2 [_ [_ h2]]]] := ht q x jq; have {e1 e2} h1 : nm_h q1 = C *m x + d by move: e1; rewrite e2 => -[<-].
have eh i : yh i - nm_h q1 = C *m col i L by rewrite qh h1 mulmxDr; mxgroup R.
have el i : yl i - nm_h q1 = - (C *m col i L) by rewrite ql h1 mulmxBr; mxgroup R.
have -> : \sum_i ((yh i - nm_h q1) + (yl i - nm_h q1)) = 0 by apply: big1 => i _; rewrite eh el subrr.
rewrite scaler0 mul0mx scaler0 !addr0 h1.
have wP := w_cov hpar hc pP; rewrite -/c -/w -/L /= in wP.
have -> : w *: (\sum_i ((yh i - (C *m x + d)) *m (yh i - (C *m x + d))^T + (yl i - (C *m x + d)) *m (yl i - (C *m x + d))^T)) = C *m P *m C^T.
  rewrite -[in RHS]wP -scalemxAr -scalemxAl mulmx_sumr mulmx_suml; congr (_ *: _).
  apply: eq_bigr => i _; rewrite -h1 eh el linearN /= mulNmx mulmxN opprK trmx_mul mulmxDr mulmxDl.
  by rewrite !mulmxA.
have -> : w *: (\sum_i (col i L *m (yh i - (C *m x + d))^T + - col i L *m (yl i - (C *m x + d))^T)) = P *m C^T.
  rewrite -[in RHS]wP -scalemxAl mulmx_suml; congr (_ *: _).
  apply: eq_bigr => i _; rewrite -h1 eh el linearN /= mulNmx mulmxN opprK trmx_mul mulmxDl.
  by rewrite !mulmxA.
rewrite cQ [Q + _]addrC.
have iE : innov P C Q = C *m P *m C^T + Q by rewrite /innov mulmxA.
have u : innov P C Q \in unitmx by apply: pd_unit; apply: innov_pd => //; exact: pd_psd.
have kE : gain P C Q = K by rewrite /gain iE.
rewrite /inverse -iE u /= -/(gain P C Q) kE; exists q'; congr (Ok (_, _, _)).
by rewrite -[RHS](subKr P) -kE post_drop //; [case: pP|case: pQ].
Qed.
(** ... that is, the correction the EKF makes *)
Theorem C50_correct_ekf (C : 'M[R]_(k, n)) (d : 'cV[R]_k) (Q : 'M[R]_k) (J : mm M -> Prop) (o : sm S) (q : mm M) x P z dt :
  J q -> (forall (q : mm M) y, J q -> exists q', mm_upd q y dt = Ok q' /\ J q' /\ mm_cov q' = Q /\ nm_h q' = C *m y + d /\ nm_H q' = C) ->
  pd P -> pd Q -> 0 < alpha ^+ 2 * (n%:R + kappa) ->
  est2 (ukf_correct par o q x P z dt) = est2 (ekf_correct o q x P z dt).
Proof.
move=> jq ht pP pQ hc.
have ht1 (q0 : mm M) y : J q0 -> exists q', mm_upd q0 y dt = Ok q' /\ J q' /\ mm_cov q' = Q /\ nm_h q' = C *m y + d.
  by move=> j0; have [q2 [h [h0 [h1 [h2 _]]]]] := ht q0 y j0; exists q2.
have [q' ->] := C50_correct o x z jq ht1 pP pQ hc.
have [q1 [e1 [_ [cQ [h1 HC]]]]] := ht q x jq.
have u : innov P C Q \in unitmx by apply: pd_unit; apply: innov_pd => //; exact: pd_psd.
have [aS _] := dS o; have [sM _] := dM q1.
rewrite (ekf_correct_gain _ _ e1) HC cQ // h1 aS sM /= /gain.
by have -> : innov P C Q = C *m P *m C^T + Q by rewrite /innov mulmxA.
Qed.

(** ** C51, correction: any function *)
Theorem C51_correct (J : mm M -> Prop) (o : sm S) (q : mm M) x P z dt :
  J q -> (forall (q : mm M) y, J q -> exists q', mm_upd q y dt = Ok q' /\ J q' /\ pd (mm_cov q')) ->
  pd P -> 0 < alpha ^+ 2 * (n%:R + kappa) -> alpha ^+ 2 <= beta ->
  exists q' x' P', ukf_correct par o q x P z dt = Ok (q', x', P') /\ J q' /\ pd P' /\ lle P' P.
Proof.
move=> jq ht pP hc hb; have [c0 w0] := cw hc.
have [||q1 [q' [yh [yl]]]] := @correct_shape o q x P z dt J (fun q => pd (mm_cov q)) (fun _ _ => True) => //.
  by move=> q0 y j0; have [q2 [h1 [h2 h3]]] := ht q0 y j0; exists q2.
set L := llt_L (c *: P) => /=; set h := fun i => yh i - nm_h q1; set l := fun i => yl i - nm_h q1.
set mu := w *: (\sum_i ((yh i - _) + _)); set X := w *: (\sum_i (col i L *m _ + _)).
set E := w *: (\sum_i ((yh i - nm_h q1) *m _ + _)).
set Sg := mm_cov q' + _; move=> [e1 _ _ [jq' pQ] ->].
have pE : psd (E + (beta - alpha ^+ 2) *: (mu *m mu^T)).
  apply: psdD; last by apply: psdZ; [rewrite subr_ge0|exact: psd_outer].
  by apply: psdZ; [exact: ltW|apply: psd_sum => i; apply: psdD; exact: psd_outer].
have pS : pd Sg by rewrite /Sg addrC; apply: psd_pdD.
have uS := pd_unit pS; have [sS _] := pS.
have wP := w_cov hpar hc pP; rewrite -/c -/w -/L /= in wP.
have pJ : pd (block_mx P X X^T Sg).
  have JE : block_mx P X X^T Sg = col_mx 0 1%:M *m mm_cov q' *m (col_mx 0 1%:M)^T
     + (w *: (\sum_i (col_mx (col i L) (h i) *m (col_mx (col i L) (h i))^T + col_mx (- col i L) (l i) *m (col_mx (- col i L) (l i))^T))
     + (beta - alpha ^+ 2) *: (col_mx (0 : 'cV_n) mu *m (col_mx (0 : 'cV_n) mu)^T)).
    have bc a b (A : 'M[R]_(a, b)) a' (B : 'M[R]_(a', b)) : col_mx A B *m (col_mx A B)^T = block_mx (A *m A^T) (A *m B^T) (B *m A^T) (B *m B^T).
      by rewrite tr_col_mx mul_col_row.
    have bs (A : 'I_n -> 'M[R]_n) B C D : \sum_i block_mx (A i) (B i) (C i) (D i) = block_mx (\sum_i A i) (\sum_i B i) (\sum_i C i) (\sum_i D i) :> 'M[R]_(n + k).
      elim: (index_enum _) => [|i r IH]; first by rewrite !big_nil block_mx0.
      by rewrite !big_cons IH add_block_mx.
    rewrite mul_col_mx mul0mx mul1mx tr_col_mx trmx0 trmx1 mul_col_row !mul0mx !mulmx0 !mulmx1.
    under eq_bigr => i _ do rewrite !bc add_block_mx.
    rewrite bs bc trmx0 !mul0mx !mulmx0 !scale_block_mx !add_block_mx !scaler0 !addr0 !add0r; congr (block_mx _ _ _ _).
      by rewrite -[LHS]wP; congr (_ *: _); apply: eq_bigr => i _; rewrite [in RHS]linearN /= mulNmx mulmxN opprK.
    rewrite /X linearZ /= linear_sum; congr (_ *: _); apply: eq_bigr => i _.
    by rewrite linearD /= !trmx_mul !trmxK.
  have pR : psd (w *: (\sum_i (col_mx (col i L) (h i) *m (col_mx (col i L) (h i))^T + col_mx (- col i L) (l i) *m (col_mx (- col i L) (l i))^T))
     + (beta - alpha ^+ 2) *: (col_mx (0 : 'cV_n) mu *m (col_mx (0 : 'cV_n) mu)^T)).
    apply: psdD; last by apply: psdZ; [rewrite subr_ge0|exact: psd_outer].
    by apply: psdZ; [exact: ltW|apply: psd_sum => i; apply: psdD; exact: psd_outer].
  split; first by rewrite JE; case: (psdD (psd_congr (col_mx 0 1%:M) (pd_psd pQ)) pR).
  move=> v; rewrite -[v]vsubmxK; set a := usubmx v; set b := dsubmx v => v0.
  have [b0|b0] := eqVneq b 0.
    rewrite b0 qf_block; have [_ hP] := pP; apply: hP; apply: contraNneq v0 => a0.
    by rewrite a0 b0 col_mx0.
  rewrite JE qfD; apply: ltr_paddr; first by case: pR.
  rewrite qf_congr tr_col_mx trmx0 trmx1 mul_row_col mul0mx mul1mx add0r.
  by case: pQ => _; apply.
have r1 := schur_pd pJ pS; have [_ r2] := schur_psd (pd_psd pJ) pS.
rewrite /inverse uS /=; exists q'; do 2 eexists; split; first reflexivity.
split => //; have -> : X *m invmx Sg *m Sg *m (X *m invmx Sg)^T = X *m invmx Sg *m X^T; last by [].
rewrite -[X *m invmx Sg *m Sg]mulmxA mulVmx // mulmx1 trmx_mul.
have -> : (invmx Sg)^T = invmx Sg by apply: sym_inv.
by rewrite mulmxA.
Qed.
End Correct.
