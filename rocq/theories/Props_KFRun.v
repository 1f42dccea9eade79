(** C43: every reachable covariance of a KalmanFilter or EKF is symmetric PSD; concrete models
    that meet the hypotheses of the theorems of Props_KF.v. *)
From mathcomp Require Import all_ssreflect all_algebra.
From Coq Require Import ZArith.
From Verif Require Import Outcome FB_Model FB_Time FB_Trace FB_Spec FB_Inv Props_Queue McRing LinAlg KF_Algebra KF_Model FB_Alg KF_Filter Props_KF.
Set Implicit Arguments.
Unset Strict Implicit.
Unset Printing Implicit Defensive.
Import GRing.Theory Num.Theory Order.TTheory.
Local Open Scope ring_scope.

Section C43.
Variables (R : realFieldType) (TT : TimeOps) (n m p : nat).

(** the calls considered: initial covariances are n x n symmetric PSD, measurement covariances
    symmetric PD (of any size), and the user's own changes to the system model keep its process
    and control covariance PSD and the objects within the invariants of the classes ([fun _ => True]
    if none is needed).  All other calls are unrestricted. *)
Definition admissible (F : FilterAlg R TT n m) (SI : fa_sys F -> Prop) (MI : forall k, fa_meas F k -> Prop) (o : Op (E := alg_env F)) : Prop :=
  match o with
  | OpInit x P _ => exists (x' : 'cV[R]_n) (P' : 'M[R]_n), x = dv x' /\ P = dm P' /\ psd P'
  | OpCorrect _ Q _ _ | OpEnqM _ Q _ _ => pd (projT2 Q)
  | OpSys f => forall sy, SI sy -> SI (f sy)
  | OpMeas f => forall ms : list (DMeas F), List.Forall (fun q => MI (projT1 q) (projT2 q)) ms -> List.Forall (fun q => MI (projT1 q) (projT2 q)) (f ms)
  | _ => True
  end.

Lemma psd_reachable (F : FilterAlg R TT n m) (SI : fa_sys F -> Prop) (MI MC : forall k, fa_meas F k -> Prop)
    (L : Lib (alg_env F)) sy (ms : list (DMeas F)) (x : 'cV[R]_n) (P : 'M[R]_n) (t : TT) ops s :
  (forall l i, List.In i (lib_sort L l) -> List.In i l) ->
  AlgPreserved (fun _ => @psd R n) SI MI MC (@psd R m) (fun k => @pd R k) ->
  SI sy -> List.Forall (fun q => MI (projT1 q) (projT2 q)) ms -> psd P -> List.Forall (admissible SI MI) ops ->
  run L ops (new_filter (E := alg_env F) sy ms (dv x) (dm P) t) = Ok s ->
  exists P' : 'M[R]_n, getCovariance s = dm P' /\ psd P'.
Proof.
move=> hs hp si mi pP ho hr.
suff h : GoodD (fun _ => @psd R n) (getState s) (getCovariance s) by have [x' [P' [_ [e pP']]]] := h; exists P'.
apply: (@C30_invariant _ (alg_env F) L _ _ _ _ _ _ _ _ _ _ _ _ _ hs (alg_preserved hp) si mi (GoodD_dm (G := fun _ => @psd R n) pP) _ hr).
by elim: ho => [|o l h1 _ IH]; constructor => //; case: o h1.
Qed.

Theorem C43_kf (S : LinSys R TT n m p) (O : SysOps S) (M : forall k, LinMeas R TT n k) (MO : forall k, MeasOps (M k))
    (IS : sm S -> Prop) (IM : forall k, mm (M k) -> Prop)
    (L : Lib (alg_env (kf_alg O MO))) (sy : sm S) (ms : list (DMeas (kf_alg O MO))) (x : 'cV[R]_n) (P : 'M[R]_n) (t : TT) ops s :
  (forall l i, List.In i (lib_sort L l) -> List.In i l) ->
  sys_ok O IS -> (forall k, meas_ok (MO k) (@IM k)) ->
  IS sy -> psd (sm_Rp sy) -> psd (sm_Rc sy) -> psd P -> List.Forall (fun q => IM (projT1 q) (projT2 q)) ms ->
  List.Forall (@admissible (kf_alg O MO) (fun o : sm S => IS o /\ psd (sm_Rp o) /\ psd (sm_Rc o)) IM) ops ->
  run L ops (new_filter (E := alg_env (kf_alg O MO)) sy ms (dv x) (dm P) t) = Ok s ->
  exists P' : 'M[R]_n, getCovariance s = dm P' /\ psd P'.
Proof.
move=> hs h1 h2 hi h3 h4 pP hms ho hr.
exact: (psd_reachable (F := kf_alg O MO) hs (kf_preserved h1 h2) (conj hi (conj h3 h4)) hms pP ho hr).
Qed.
Theorem C43_ekf (S : NonlinSys R TT n m p) (O : SysOps S) (M : forall k, NonlinMeas R TT n k) (MO : forall k, MeasOps (M k))
    (IS : sm S -> Prop) (IM : forall k, mm (M k) -> Prop)
    (L : Lib (alg_env (ekf_alg O MO))) (sy : sm S) (ms : list (DMeas (ekf_alg O MO))) (x : 'cV[R]_n) (P : 'M[R]_n) (t : TT) ops s :
  (forall l i, List.In i (lib_sort L l) -> List.In i l) ->
  sys_ok O IS -> (forall k, meas_ok (MO k) (@IM k)) ->
  IS sy -> psd (sm_Rp sy) -> psd (sm_Rc sy) -> psd P -> List.Forall (fun q => IM (projT1 q) (projT2 q)) ms ->
  List.Forall (@admissible (ekf_alg O MO) (fun o : sm S => IS o /\ psd (sm_Rp o) /\ psd (sm_Rc o)) IM) ops ->
  run L ops (new_filter (E := alg_env (ekf_alg O MO)) sy ms (dv x) (dm P) t) = Ok s ->
  exists P' : 'M[R]_n, getCovariance s = dm P' /\ psd P'.
Proof.
move=> hs h1 h2 hi h3 h4 pP hms ho hr.
exact: (psd_reachable (F := ekf_alg O MO) hs (ekf_preserved h1 h2) (conj hi (conj h3 h4)) hms pP ho hr).
Qed.
End C43.

(** ** Concrete models: constant matrices, default vector operations; the object of a class is the
    stored covariance *)
Section Const.
Variables (R : realFieldType) (T : Type) (n m p k : nat).
Definition const_sys (A : 'M[R]_n) (B : 'M[R]_(n, m)) (W : 'M[R]_(n, p)) (V : 'M[R]_(n, m)) (Rp : 'M[R]_p) act actC : LinSys R T n m p :=
  @Build_LinSys R T n m p
   {| sm := 'M[R]_m; sm_upd := fun o _ _ _ => Ok o; sm_P := fun _ => W; sm_V := fun _ => V; sm_Rp := fun _ => Rp;
      sm_Rc := fun o => o; sm_add := fun _ => @add_default R n; sm_sub := fun _ => @sub_default R n;
      sm_wsum := fun _ => @wsum_default R n; sm_act := fun _ => act; sm_actC := fun _ => actC |} (fun _ => A) (fun _ => B).
Definition const_sys_ops (S : SysI R T n m p) (set : sm S -> 'M[R]_m -> sm S) : SysOps S :=
  {| so_setRc := set; so_check := fun _ => false; so_isStat := fun _ _ _ => false;
     so_proc := fun o _ _ => o; so_make := fun _ x P => (x, P) |}.
Definition const_meas (C : 'M[R]_(k, n)) act : LinMeas R T n k :=
  @Build_LinMeas R T n k
   {| mm := 'M[R]_k; mm_upd := fun q _ _ => Ok q; mm_cov := fun q => q; mm_sub := fun _ => @sub_default R k;
      mm_wsum := fun _ => @wsum_default R k; mm_act := fun _ => act |} (fun _ => C).
Definition const_meas_ops (M : MeasI R T n k) (set : mm M -> 'M[R]_k -> mm M) : MeasOps M :=
  {| mo_setCov := set; mo_check := fun _ => false; mo_isStat := fun _ _ _ => false;
     mo_proc := fun q _ _ => q; mo_make := fun _ x P => (x, P) |}.
End Const.


(** a position/velocity system with a position measurement meets the hypotheses of C37 - C44 *)
Section Witness.
Variables (R : realFieldType).
Add Field Rfield : (mc_field R).
Definition w_sys (T : Type) : LinSys R T 2 1 2 :=
  const_sys T (block_mx 1%:M 1%:M 0 1%:M : 'M_(1 + 1)) (col_mx 0 1%:M : 'M_(1 + 1, 1)) 1%:M (col_mx 0 1%:M : 'M_(1 + 1, 1)) 1%:M [::] [::].
Definition w_meas T : LinMeas R T 2 1 := const_meas T (row_mx 1%:M 0 : 'M_(1, 1 + 1)) [::].

Example KF_nonvacuous (x : 'cV[R]_2) (u z : 'cV[R]_1) :
  let S := w_sys unit in let M := w_meas unit in let o : sm S := 1%:M in let q : mm M := 1%:M in
  let P : 'M[R]_2 := 1%:M in
  sm_upd o x u tt = Ok o /\ mm_upd q x tt = Ok q /\ pd P /\ psd P /\ psd (sm_Rp o) /\ psd (sm_Rc o) /\ pd (mm_cov q)
  /\ sm_add o = @add_default R 2 /\ mm_sub q = @sub_default R 1
  /\ fixed_meas q (lm_C q) (mm_cov q)
  /\ exists x', kf_correct o q x P z tt = Ok (q, x', block_mx (1/2%:R)%:M 0 0 1%:M : 'M_(1 + 1)).
Proof.
do 9 ?[split => //; try exact: pd1; try by apply: pd_psd; exact: pd1].
split; first by move=> y []; exists 1%:M.
set q : mm (w_meas unit) := 1%:M; set o : sm (w_sys unit) := 1%:M.
have e : mm_upd q x tt = Ok q by [].
have pP : psd (1%:M : 'M[R]_2) by apply: pd_psd; exact: pd1.
have pQ : pd (mm_cov q) by exact: pd1.
rewrite (kf_correct_gain o z e (pd_unit (innov_pd (lm_C q) pP pQ))); eexists; do 2 f_equal.
have -> : gain 1%:M (lm_C q) (mm_cov q) = col_mx (1/2%:R)%:M 0 :> 'M[R]_(1 + 1, 1).
  apply/esym/gain_unique; first exact: (pd_unit (innov_pd (lm_C q) pP pQ)).
  rewrite /innov /q /= mul1mx tr_row_mx mul_row_col trmx1 mulmx1 trmx0 mulmx0 addr0 mul_col_mx mul0mx.
  by rewrite mulmxDr mulmx1 -raddfD /= -mulrDl divff // (_ : 1 + 1 = 2%:R) // pnatr_eq0.
rewrite /q /= mulmx1.
have -> : col_mx (1 / 2%:R)%:M 0 *m row_mx 1%:M 0 = block_mx (1 / 2%:R)%:M 0 0 0 :> 'M[R]_(1 + 1).
  by apply: etrans (mul_col_row _ _ _ _) _; rewrite mulmx1 mulmx0 mul0mx mul0mx.
suff h : block_mx 1%:M 0 0 1%:M - block_mx (1 / 2%:R)%:M 0 0 0 = block_mx (1 / 2%:R)%:M 0 0 1%:M :> 'M[R]_(1 + 1).
  by rewrite -h; congr (_ - _); apply: (@scalar_mx_block R 1 1 1).
rewrite opp_block_mx add_block_mx !oppr0 !addr0.
congr (block_mx _ _ _ _); rewrite -raddfB /=; congr (_%:M).
have n2 : (2%:R : R) != 0 by rewrite pnatr_eq0.
by apply/eqP; rewrite subr_eq -mulrDl divff.
Qed.

(** C41: P = 1, C = 2, Q = 0 *)
Example C41_nonvacuous : let C : 'M[R]_2 := 2%:R%:M in pd (1%:M : 'M[R]_2) /\ C \in unitmx.
Proof.
split; first exact: pd1.
by rewrite unitmxE det_scalar unitrX // unitfE pnatr_eq0.
Qed.

(** C43: a run with a late control and a queue *)
Definition w_ops : SysOps (w_sys ZTime) := @const_sys_ops R ZTime 2 1 2 (w_sys ZTime) (fun _ (Rc : 'M[R]_1) => Rc).
Definition w_fam (k : nat) : LinMeas R ZTime 2 k := const_meas ZTime (\matrix_(i, j) ((i == j :> nat)%:R)) [::].
Definition w_mops (k : nat) : MeasOps (w_fam k) := @const_meas_ops R ZTime 2 k (w_fam k) (fun _ (Q : 'M[R]_k) => Q).
Example C43_nonvacuous_models : sys_ok w_ops (fun _ => True) /\ forall k, meas_ok (w_mops k) (fun _ => True).
Proof.
split=> [|k]; split => //=.
  by move=> o x u dt o' _ [<-].
by move=> q x dt q' _ [<-].
Qed.

Definition w_lib : Lib (alg_env (kf_alg w_ops w_mops)) := mkLib false id.
(** a control and a measurement, in any environment without stationary handling *)
Lemma run_two (E : Env ZTime) (L : Lib E) (sy sy1 sy2 sy3 sy4 sy5 : Sys E) (q q1 q2 : Meas E) x P u x1 P1 x2 P2 z Q x3 P3 :
  Nat.ltb 0 (vsize u) = true ->
  (forall sy : Sys E, s_check sy = false) -> (forall q : Meas E, m_check q = false) ->
  s_setRc sy (s_Rc sy) = Ok sy1 -> my_predict sy1 x P u (zt 1) = Ok (sy2, x1, P1) ->
  s_setRc sy2 (s_Rc sy) = Ok sy3 -> my_predict sy3 x1 P1 u (zt 2) = Ok (sy4, x2, P2) ->
  m_setCov q Q = Ok q1 -> my_correct sy4 q1 x2 P2 z (zt 2) = Ok (sy5, q2, x3, P3) ->
  exists s, run L [:: OpPredictU u (zt 1); OpCorrect z Q (zt 3) (Some 0%nat)] (new_filter sy [:: q] x P (zt 0)) = Ok s.
Proof.
move=> hu hs hm e1 e2 e3 e4 e5 e6.
rewrite /run /= /predict_u /applyInput /input_core /applyControlInput /choose_control /control_update /=.
rewrite hu /= hs /= e1 /= e2 /=.
rewrite /correct /applyInput /input_core /applyMeasurementInput /advance_if_needed /applyControlInput /choose_control /control_update /=.
rewrite hu /= hs /= e3 /= e4 /= /meas_update e5 /= hm /= e6 /=.
by eexists.
Qed.
Lemma alg_setRc_ok (F : FilterAlg R ZTime 2 1) (sy : fa_sys F) (Rc : 'M[R]_1) :
  s_setRc (e := alg_env F) sy (dm Rc) = Ok (fa_setRc sy Rc).
Proof. by rewrite /= mat_of_dm. Qed.
Lemma alg_setCov_ok (F : FilterAlg R ZTime 2 1) k (q : fa_meas F k) (Q : 'M[R]_k) :
  m_setCov (e := alg_env F) (existT _ k q) (dm Q) = Ok (dmeas (fa_setCov q Q)).
Proof. by rewrite /= mat_of_dm. Qed.
Lemma alg_predict_ok (F : FilterAlg R ZTime 2 1) (sy sy' : fa_sys F) (x x' : 'cV[R]_2) (P P' : 'M[R]_2) (u : 'cV[R]_1) dt :
  fa_predict sy x P u dt = Ok (sy', x', P') -> my_predict (e := alg_env F) sy (dv x) (dm P) (dv u) dt = Ok (sy', dv x', dm P').
Proof. by move=> e; rewrite /= vec_of_dv mat_of_dm /= vec_of_dv /= e. Qed.
Lemma alg_correct_ok (F : FilterAlg R ZTime 2 1) k (sy sy' : fa_sys F) (q q' : fa_meas F k) (x x' : 'cV[R]_2) (P P' : 'M[R]_2) (z : 'cV[R]_k) dt :
  fa_correct sy q x P z dt = Ok (sy', q', x', P') ->
  my_correct (e := alg_env F) sy (existT _ k q) (dv x) (dm P) (dv z) dt = Ok (sy', dmeas q', dv x', dm P').
Proof. by move=> e; rewrite /= vec_of_dv mat_of_dm /= vec_of_dv /= e. Qed.
Example C43_nonvacuous_run (x : 'cV[R]_2) (u : 'cV[R]_1) (z : 'cV[R]_1) :
  exists s, run w_lib [:: OpPredictU (E := alg_env (kf_alg w_ops w_mops)) (dv u) (zt 1); OpCorrect (E := alg_env (kf_alg w_ops w_mops)) (dv z) (dm (1%:M : 'M[R]_1)) (zt 3) (Some 0%nat)]
    (new_filter (E := alg_env (kf_alg w_ops w_mops)) (1%:M : 'M[R]_1) [:: existT (fun k => mm (w_fam k)) 1%nat (1%:M : 'M[R]_1)] (dv x) (dm (1%:M : 'M[R]_2)) (zt 0)) = Ok s.
Proof.
set A : 'M[R]_2 := (block_mx 1%:M 1%:M 0 1%:M : 'M_(1 + 1)); set V : 'M[R]_(2, 1) := (col_mx 0 1%:M : 'M_(1 + 1, 1)).
pose step (P : 'M[R]_2) := A *m P *m A^T + 1%:M *m 1%:M *m 1%:M^T + V *m 1%:M *m V^T.
have pS P : psd P -> psd (step P) by move=> pP; do !apply: psdD; apply: psd_congr => //; apply: pd_psd; exact: pd1.
have p1 : psd (1%:M : 'M[R]_2) by apply: pd_psd; exact: pd1.
pose nx (x : 'cV[R]_2) := A *m x + V *m u.
have [x3 [P3 [e3 _]]] := C38_kf (S := w_sys ZTime) (M := w_fam 1) (q := 1%:M) (x := nx (nx x)) (dt := ZFin 2 : ZTime) 1%:M z erefl (pS _ (pS _ p1)) (pd1 R 1).
apply: (@run_two (alg_env (kf_alg w_ops w_mops)) w_lib (1%:M : 'M[R]_1) (1%:M : 'M[R]_1) (1%:M : 'M[R]_1) (1%:M : 'M[R]_1) (1%:M : 'M[R]_1) (1%:M : 'M[R]_1)
   (existT (fun k => mm (w_fam k)) 1%nat (1%:M : 'M[R]_1)) (existT (fun k => mm (w_fam k)) 1%nat (1%:M : 'M[R]_1)) (existT (fun k => mm (w_fam k)) 1%nat (1%:M : 'M[R]_1))
   (dv x) (dm 1%:M) (dv u) (dv (nx x)) (dm (step 1%:M)) (dv (nx (nx x))) (dm (step (step 1%:M))) (dv z) (dm 1%:M) (dv x3) (dm P3)) => //.
- exact: alg_setRc_ok.
- exact: alg_predict_ok.
- exact: alg_setRc_ok.
- exact: alg_predict_ok.
- exact: alg_setCov_ok.
- by apply: alg_correct_ok; rewrite /fa_correct /kf_alg e3.
Qed.
End Witness.
