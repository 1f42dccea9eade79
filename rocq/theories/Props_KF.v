(** C37 - C42, C44: one prediction / one correction of KalmanFilter and EKF. *)
From mathcomp Require Import all_ssreflect all_algebra.
From Verif Require Import Outcome McRing LinAlg KF_Algebra KF_Model.
Set Implicit Arguments.
Unset Strict Implicit.
Unset Printing Implicit Defensive.
Import GRing.Theory Num.Theory Order.TTheory.
Local Open Scope ring_scope.

Section KF.
Variables (R : realFieldType) (T : Type).
Add Field Rfield : (mc_field R).
Variables n m p k : nat.
Implicit Types (x : 'cV[R]_n) (P : 'M[R]_n) (u : 'cV[R]_m) (z : 'cV[R]_k) (dt : T).

(** ** C37: prediction keeps the covariance symmetric positive semi-definite *)
Theorem C37_kf (S : LinSys R T n m p) (o o1 : sm S) x P u dt :
  sm_upd o x u dt = Ok o1 -> psd P -> psd (sm_Rp o1) -> psd (sm_Rc o1) ->
  exists x' P', kf_predict o x P u dt = Ok (o1, x', P') /\ psd P'.
Proof.
move=> e pP pp pc; rewrite /kf_predict e /=.
by do 2 eexists; split; [reflexivity|do !apply: psdD; apply: psd_congr].
Qed.
Theorem C37_ekf (S : NonlinSys R T n m p) (o o1 : sm S) x P u dt :
  sm_upd o x u dt = Ok o1 -> psd P -> psd (sm_Rp o1) -> psd (sm_Rc o1) ->
  exists x' P', ekf_predict o x P u dt = Ok (o1, x', P') /\ psd P'.
Proof.
move=> e pP pp pc; rewrite /ekf_predict e /=.
by do 2 eexists; split; [reflexivity|do !apply: psdD; apply: psd_congr].
Qed.
(** ... and the exact covariance: A P A' + P Rp P' + V Rc V' *)
Theorem C37_kf_value (S : LinSys R T n m p) (o o1 : sm S) x P u dt :
  sm_upd o x u dt = Ok o1 ->
  exists x', kf_predict o x P u dt =
    Ok (o1, x', ls_A o1 *m P *m (ls_A o1)^T + sm_P o1 *m sm_Rp o1 *m (sm_P o1)^T + sm_V o1 *m sm_Rc o1 *m (sm_V o1)^T)
    /\ (sm_add o1 = @add_default R n -> x' = ls_A o1 *m x + ls_B o1 *m u).
Proof. by move=> e; rewrite /kf_predict e /=; eexists; split; [reflexivity|move=> ->]. Qed.

Lemma inverse_ok k' (A : 'M[R]_k') : A \in unitmx -> inverse A = Ok (invmx A).
Proof. by rewrite /inverse => ->. Qed.

(** the corrections in terms of the textbook gain *)
Lemma kf_correct_gain (S : LinSys R T n m p) (M : LinMeas R T n k) (o : sm S) (q q1 : mm M) x P z dt :
  mm_upd q x dt = Ok q1 -> innov P (lm_C q1) (mm_cov q1) \in unitmx ->
  kf_correct o q x P z dt = Ok (q1, sm_add o x (gain P (lm_C q1) (mm_cov q1) *m mm_sub q1 z (lm_C q1 *m x)),
                                (1%:M - gain P (lm_C q1) (mm_cov q1) *m lm_C q1) *m P).
Proof. by move=> e u; rewrite /kf_correct e /= inverse_ok. Qed.
Lemma ekf_correct_gain (S : NonlinSys R T n m p) (M : NonlinMeas R T n k) (o : sm S) (q q1 : mm M) x P z dt :
  mm_upd q x dt = Ok q1 -> innov P (nm_H q1) (mm_cov q1) \in unitmx ->
  ekf_correct o q x P z dt = Ok (q1, sm_add o x (gain P (nm_H q1) (mm_cov q1) *m mm_sub q1 z (nm_h q1)),
                                (1%:M - gain P (nm_H q1) (mm_cov q1) *m nm_H q1) *m P).
Proof. by move=> e u; rewrite /ekf_correct e /= inverse_ok. Qed.

(** ** C38: correction is well defined, keeps the covariance symmetric PSD and does not increase it *)
Theorem C38_kf (S : LinSys R T n m p) (M : LinMeas R T n k) (o : sm S) (q q1 : mm M) x P z dt :
  mm_upd q x dt = Ok q1 -> psd P -> pd (mm_cov q1) ->
  exists x' P', kf_correct o q x P z dt = Ok (q1, x', P') /\ psd P' /\ lle P' P.
Proof.
move=> e pP pQ; have u := pd_unit (innov_pd (lm_C q1) pP pQ).
rewrite (kf_correct_gain _ _ e u); do 2 eexists; split; first reflexivity.
by split; [apply: post_psd|apply: post_lle] => //; apply: pd_psd.
Qed.
Theorem C38_ekf (S : NonlinSys R T n m p) (M : NonlinMeas R T n k) (o : sm S) (q q1 : mm M) x P z dt :
  mm_upd q x dt = Ok q1 -> psd P -> pd (mm_cov q1) ->
  exists x' P', ekf_correct o q x P z dt = Ok (q1, x', P') /\ psd P' /\ lle P' P.
Proof.
move=> e pP pQ; have u := pd_unit (innov_pd (nm_H q1) pP pQ).
rewrite (ekf_correct_gain _ _ e u); do 2 eexists; split; first reflexivity.
by split; [apply: post_psd|apply: post_lle] => //; apply: pd_psd.
Qed.
(** in particular no variance increases *)
Theorem C38_variances (S : LinSys R T n m p) (M : LinMeas R T n k) (o : sm S) (q q1 : mm M) x P z dt x' P' i :
  mm_upd q x dt = Ok q1 -> psd P -> pd (mm_cov q1) -> kf_correct o q x P z dt = Ok (q1, x', P') ->
  0 <= P' i i <= P i i.
Proof.
move=> e pP pQ h; have [x2 [P2 [h2 [a b]]]] := C38_kf o z e pP pQ.
by move: h; rewrite h2 => -[_ <-]; rewrite psd_diag // lle_diag.
Qed.
(** the assumption on the measurement covariance cannot be dropped: with zero covariance and zero
    measurement noise the innovation covariance is singular *)
Theorem C38_singular (S : LinSys R T n m p) (M : LinMeas R T n k) (o : sm S) (q q1 : mm M) x z dt :
  mm_upd q x dt = Ok q1 -> mm_cov q1 = 0 -> (0 < k)%N ->
  kf_correct o q x 0 z dt = Ub ub_singular.
Proof.
move=> e q0 k0; rewrite /kf_correct e /= /inverse q0 mul0mx mulmx0 addr0.
case: ifP => // u; have := mulVmx u; rewrite mulmx0 => /matrixP/(_ (Ordinal k0) (Ordinal k0)).
by rewrite !mxE eqxx => /eqP; rewrite eq_sym oner_eq0.
Qed.

(** ** C39: the gain is optimal.  [joseph P C Q L] is the covariance of the error of the linear
    update x + L (z - C x) with measurement noise Q. *)
Theorem C39_kf (S : LinSys R T n m p) (M : LinMeas R T n k) (o : sm S) (q q1 : mm M) x P z dt x' P' :
  mm_upd q x dt = Ok q1 -> psd P -> psd (mm_cov q1) -> kf_correct o q x P z dt = Ok (q1, x', P') ->
  forall L : 'M[R]_(n, k),
    lle P' ((1%:M - L *m lm_C q1) *m P *m (1%:M - L *m lm_C q1)^T + L *m mm_cov q1 *m L^T).
Proof.
move=> e pP pQ h L.
have u : innov P (lm_C q1) (mm_cov q1) \in unitmx.
  by move: h; rewrite /kf_correct e /= /inverse /innov; case: ifP.
by move: h; rewrite (kf_correct_gain _ _ e u) => -[_ <-]; apply: post_optimal.
Qed.
Theorem C39_ekf (S : NonlinSys R T n m p) (M : NonlinMeas R T n k) (o : sm S) (q q1 : mm M) x P z dt x' P' :
  mm_upd q x dt = Ok q1 -> psd P -> psd (mm_cov q1) -> ekf_correct o q x P z dt = Ok (q1, x', P') ->
  forall L : 'M[R]_(n, k),
    lle P' ((1%:M - L *m nm_H q1) *m P *m (1%:M - L *m nm_H q1)^T + L *m mm_cov q1 *m L^T).
Proof.
move=> e pP pQ h L.
have u : innov P (nm_H q1) (mm_cov q1) \in unitmx.
  by move: h; rewrite /ekf_correct e /= /inverse /innov; case: ifP.
by move: h; rewrite (ekf_correct_gain _ _ e u) => -[_ <-]; apply: post_optimal.
Qed.
(** the covariance produced is attained by a gain, the one used for the state, and only by it *)
Theorem C39_attained (S : LinSys R T n m p) (M : LinMeas R T n k) (o : sm S) (q q1 : mm M) x P z dt x' P' :
  mm_upd q x dt = Ok q1 -> psd P -> pd (mm_cov q1) -> sm_add o = @add_default R n -> mm_sub q1 = @sub_default R k ->
  kf_correct o q x P z dt = Ok (q1, x', P') ->
  exists K : 'M[R]_(n, k), x' = x + K *m (z - lm_C q1 *m x)
    /\ P' = (1%:M - K *m lm_C q1) *m P *m (1%:M - K *m lm_C q1)^T + K *m mm_cov q1 *m K^T
    /\ forall L, lle ((1%:M - L *m lm_C q1) *m P *m (1%:M - L *m lm_C q1)^T + L *m mm_cov q1 *m L^T) P' -> L = K.
Proof.
move=> e pP pQ a b; have u := pd_unit (innov_pd (lm_C q1) pP pQ).
have [sP _] := pP; have [sQ _] := pQ.
rewrite (kf_correct_gain _ _ e u) => -[<- <-]; exists (gain P (lm_C q1) (mm_cov q1)); split; first by rewrite a b.
by split; [exact: post_joseph|move=> L; apply: post_optimal_unique].
Qed.

(** ** C40: a measurement equal to the prediction changes nothing; otherwise the correction is
    linear in the innovation *)
Theorem C40_kf (S : LinSys R T n m p) (M : LinMeas R T n k) (o : sm S) (q q1 : mm M) x P dt :
  mm_upd q x dt = Ok q1 -> psd P -> pd (mm_cov q1) -> sm_add o = @add_default R n -> mm_sub q1 = @sub_default R k ->
  exists (K : 'M[R]_(n, k)) P', forall z, kf_correct o q x P z dt = Ok (q1, x + K *m (z - lm_C q1 *m x), P').
Proof.
move=> e pP pQ a b; have u := pd_unit (innov_pd (lm_C q1) pP pQ).
by do 2 eexists; move=> z; rewrite (kf_correct_gain _ _ e u) a b.
Qed.
Theorem C40_kf_fixpoint (S : LinSys R T n m p) (M : LinMeas R T n k) (o : sm S) (q q1 : mm M) x P dt :
  mm_upd q x dt = Ok q1 -> psd P -> pd (mm_cov q1) -> sm_add o = @add_default R n -> mm_sub q1 = @sub_default R k ->
  exists P', kf_correct o q x P (lm_C q1 *m x) dt = Ok (q1, x, P').
Proof.
move=> e pP pQ a b; have [K [P' h]] := C40_kf e pP pQ a b; exists P'.
by rewrite h subrr mulmx0 addr0.
Qed.
Theorem C40_ekf (S : NonlinSys R T n m p) (M : NonlinMeas R T n k) (o : sm S) (q q1 : mm M) x P dt :
  mm_upd q x dt = Ok q1 -> psd P -> pd (mm_cov q1) -> sm_add o = @add_default R n -> mm_sub q1 = @sub_default R k ->
  exists (K : 'M[R]_(n, k)) P', (forall z, ekf_correct o q x P z dt = Ok (q1, x + K *m (z - nm_h q1), P'))
    /\ ekf_correct o q x P (nm_h q1) dt = Ok (q1, x, P').
Proof.
move=> e pP pQ a b; have u := pd_unit (innov_pd (nm_H q1) pP pQ).
have h z : ekf_correct o q x P z dt = _ := ekf_correct_gain o z e u.
do 2 eexists; split; first by move=> z; rewrite h a b.
by rewrite h a b /add_default /sub_default subrr mulmx0 addr0.
Qed.

(** ** C44: EKF = KF on linear models.  The nonlinear model is the same object with g, G. *)
Theorem C44_predict (S : LinSys R T n m p) (g : sm S -> 'cV[R]_n) (G : sm S -> 'M[R]_n) :
  (forall (o o1 : sm S) x u dt, sm_upd o x u dt = Ok o1 -> g o1 = ls_A o1 *m x + ls_B o1 *m u /\ G o1 = ls_A o1) ->
  (forall o : sm S, sm_add o = @add_default R n) ->
  forall (o : sm S) x P u dt, ekf_predict (S := Build_NonlinSys g G) o x P u dt = kf_predict o x P u dt.
Proof.
move=> h a o x P u dt; rewrite /ekf_predict /kf_predict /=; case e: (sm_upd o x u dt) => [o1|//] /=.
by have [-> ->] := h _ _ _ _ _ e; rewrite a.
Qed.
Theorem C44_correct (S : LinSys R T n m p) (M : LinMeas R T n k) (g : sm S -> 'cV[R]_n) (G : sm S -> 'M[R]_n)
    (h : mm M -> 'cV[R]_k) (H : mm M -> 'M[R]_(k, n)) :
  (forall (q q1 : mm M) x dt, mm_upd q x dt = Ok q1 -> h q1 = lm_C q1 *m x /\ H q1 = lm_C q1) ->
  forall (o : sm S) (q : mm M) x P z dt,
    ekf_correct (S := Build_NonlinSys g G) (M := Build_NonlinMeas h H) o q x P z dt = kf_correct o q x P z dt.
Proof.
move=> hh o q x P z dt; rewrite /ekf_correct /kf_correct /=; case e: (mm_upd q x dt) => [q1|//] /=.
by have [-> ->] := hh _ _ _ _ e.
Qed.
End KF.

(** ** C41: a noise-free measurement of the whole state *)
Section C41.
Variables (R : realFieldType) (T : Type) (n m p : nat).
Theorem C41 (S : LinSys R T n m p) (M : LinMeas R T n n) (o : sm S) (q q1 : mm M) x P z dt :
  mm_upd q x dt = Ok q1 -> pd P -> lm_C q1 \in unitmx -> mm_cov q1 = 0 ->
  sm_add o = @add_default R n -> mm_sub q1 = @sub_default R n ->
  kf_correct o q x P z dt = Ok (q1, invmx (lm_C q1) *m z, 0).
Proof.
move=> e pP uC q0 a b; set C := lm_C q1 in uC *.
have uS : innov P C 0 \in unitmx.
  by rewrite /innov addr0 !unitmx_mul uC (pd_unit pP) unitmx_tr uC.
have hg : gain P C 0 = invmx C.
  by apply/esym/gain_unique => //; rewrite /innov addr0 mulmxA mulVmx // mul1mx.
have uS' : innov P (lm_C q1) (mm_cov q1) \in unitmx by rewrite q0.
rewrite (kf_correct_gain o z e uS') q0 -/C hg a b /add_default /sub_default mulmxBr mulmxA mulVmx // mul1mx subrr mul0mx.
by rewrite addrC subrK.
Qed.
End C41.

(** ** C42: independent simultaneous measurements commute *)
Section C42.
Variables (R : realFieldType) (T : Type) (n m p k1 k2 : nat).
(** a measurement model with fixed C and Q and default vector operations *)
Definition fixed_meas k (M : LinMeas R T n k) (q : mm M) (C : 'M[R]_(k, n)) (Q : 'M[R]_k) : Prop :=
  forall x dt, exists q1, mm_upd q x dt = Ok q1 /\ lm_C q1 = C /\ mm_cov q1 = Q /\ mm_sub q1 = @sub_default R k.
(** state and covariance after a correction *)
Definition est2 (A B C : Type) (r : outcome (A * B * C)) : outcome (B * C) :=
  let* r := r in Ok (r.1.2, r.2).

Lemma fixed_correct k (S : LinSys R T n m p) (M : LinMeas R T n k) (o : sm S) (q : mm M) C Q x P z dt :
  sm_add o = @add_default R n -> fixed_meas q C Q -> psd P -> pd Q ->
  est2 (kf_correct o q x P z dt) = Ok (x + gain P C Q *m (z - C *m x), (1%:M - gain P C Q *m C) *m P).
Proof.
move=> a f pP pQ; have [q1 [e [c [d b]]]] := f x dt.
have uS : innov P (lm_C q1) (mm_cov q1) \in unitmx by rewrite c d; apply: pd_unit; apply: innov_pd.
rewrite (kf_correct_gain o z e uS).
by rewrite /est2 /= c d a b.
Qed.

Theorem C42_sequential_is_stacked (S : LinSys R T n m p) (M1 : LinMeas R T n k1) (M2 : LinMeas R T n k2)
    (M : LinMeas R T n (k1 + k2)) (o : sm S) (q1 : mm M1) (q2 : mm M2) (q : mm M) C1 C2 Q1 Q2 x P z1 z2 dt dt' :
  sm_add o = @add_default R n ->
  fixed_meas q1 C1 Q1 -> fixed_meas q2 C2 Q2 -> fixed_meas q (col_mx C1 C2) (block_mx Q1 0 0 Q2) ->
  psd P -> pd Q1 -> pd Q2 ->
  (let* r := est2 (kf_correct o q1 x P z1 dt) in est2 (kf_correct o q2 r.1 r.2 z2 dt'))
  = est2 (kf_correct o q x P (col_mx z1 z2) dt).
Proof.
move=> a f1 f2 f pP p1 p2; rewrite (fixed_correct _ _ _ a f1) //=.
have pP1 : psd ((1%:M - gain P C1 Q1 *m C1) *m P).
  by apply: post_psd => //; [apply: pd_psd|apply: pd_unit; apply: innov_pd].
rewrite (fixed_correct _ _ _ a f2) // (fixed_correct _ _ _ a f) //; last exact: block_pd.
by congr (Ok (_, _)); [apply: seq_state|apply: seq_cov].
Qed.

Theorem C42_commute (S : LinSys R T n m p) (M1 : LinMeas R T n k1) (M2 : LinMeas R T n k2)
    (o : sm S) (q1 : mm M1) (q2 : mm M2) C1 C2 Q1 Q2 x P z1 z2 dt dt' :
  sm_add o = @add_default R n -> fixed_meas q1 C1 Q1 -> fixed_meas q2 C2 Q2 -> psd P -> pd Q1 -> pd Q2 ->
  (let* r := est2 (kf_correct o q1 x P z1 dt) in est2 (kf_correct o q2 r.1 r.2 z2 dt'))
  = (let* r := est2 (kf_correct o q2 x P z2 dt') in est2 (kf_correct o q1 r.1 r.2 z1 dt)).
Proof.
move=> a f1 f2 pP p1 p2.
rewrite (fixed_correct x z1 dt a f1 pP p1) (fixed_correct x z2 dt' a f2 pP p2) /obind [fst _]/= [snd _]/=.
have pP1 : psd ((1%:M - gain P C1 Q1 *m C1) *m P).
  by apply: post_psd => //; [apply: pd_psd|apply: pd_unit; apply: innov_pd].
have pP2 : psd ((1%:M - gain P C2 Q2 *m C2) *m P).
  by apply: post_psd => //; [apply: pd_psd|apply: pd_unit; apply: innov_pd].
rewrite (fixed_correct _ z2 dt' a f2 pP1 p2) (fixed_correct _ z1 dt a f1 pP2 p1).
rewrite (seq_state C1 C2 pP p1 p2) (seq_cov C1 C2 pP p1 p2) (seq_state C2 C1 pP p2 p1) (seq_cov C2 C1 pP p2 p1).
have sw : gain P (col_mx C1 C2) (block_mx Q1 0 0 Q2)
   = row_mx (rsubmx (gain P (col_mx C2 C1) (block_mx Q2 0 0 Q1))) (lsubmx (gain P (col_mx C2 C1) (block_mx Q2 0 0 Q1))).
  rewrite -(seq_gain C2 C1 pP p2 p1) row_mxKl row_mxKr.
  set K2 := gain P C2 Q2; set P2 := (1%:M - K2 *m C2) *m P; set K1 := gain P2 C1 Q1.
  apply: esym; apply: (block_gain pP p1 p2).
  - have h2 : K2 *m (C2 *m (P *m C2^T) + Q2) = P *m C2^T by apply: gainS; apply: pd_unit; apply: innov_pd.
    have h1 : K1 *m (C1 *m (P2 *m C1^T) + Q1) = P2 *m C1^T by apply: gainS; apply: pd_unit; apply: innov_pd.
    have e1 : P2 *m C1^T = P *m C1^T - K2 *m (C2 *m (P *m C1^T)) by rewrite /P2 !mulmxBl mul1mx !mulmxA.
    rewrite mulmxBl addrCA -[K1 *m C1 *m K2 *m _]mulmxA -[K1 *m C1 *m _]mulmxA -mulmxBr.
    have -> : C1 *m (P *m C1^T) + Q1 - C1 *m (K2 *m (C2 *m (P *m C1^T))) = C1 *m (P2 *m C1^T) + Q1.
      by rewrite e1 mulmxBr addrAC.
    by rewrite h1 e1 addrC subrK.
  - have h2 : K2 *m (C2 *m (P *m C2^T) + Q2) = P *m C2^T by apply: gainS; apply: pd_unit; apply: innov_pd.
    rewrite mulmxBl h2 -[K1 *m C1 *m K2 *m _]mulmxA h2 -!mulmxA addrC subrK //.
congr (Ok (_, _)).
  rewrite sw; set L := gain _ _ _; rewrite -{3}[L]hsubmxK !mul_col_mx !opp_col_mx !add_col_mx !mul_row_col.
  by congr (_ + _); rewrite addrC.
rewrite sw; set L := gain _ _ _; rewrite -{3}[L]hsubmxK !mul_row_col.
by congr ((_ - _) *m _); rewrite addrC.
Qed.
End C42.
