(** C106: measurements that agree with the prediction leave a KalmanFilter, EKF or EKFVS on the course of its
    motion model, through any sequence of calls; C107: the same for the UKF. *)
From mathcomp Require Import all_ssreflect all_algebra.
From Coq Require Import ZArith.
From Verif Require Import Outcome FB_Model FB_Time FB_Trace FB_Sim FB_AlgSim FB_Follow FB_AlgFollow McRing LinAlg KF_Algebra KF_Model FB_Alg KF_Filter VS_Lemmas
  Props_KF Props_KFRun Props_VS UKF_Model UKF_Chol UKF_Lemmas UKF_Algebra Props_UKF Props_UKFRun Props_UKFVS Props_VSU Props_Sim Props_SimRun Props_SimRunU.
Set Implicit Arguments.
Unset Strict Implicit.
Unset Printing Implicit Defensive.
Import GRing.Theory Num.Theory Order.TTheory.
Local Open Scope ring_scope.

(** ** The reference: dead reckoning with the user's models

    It moves the state with the motion model, keeps no covariance, and lets a measurement pass only if it is
    exactly what the measurement model predicts at the present state; otherwise it stops.  (Adding a zero
    correction is what normalises the state in models that do so; it does nothing in the others.) *)
Section Reckoning.
Variables (R : realFieldType) (TT : TimeOps) (n m p : nat).
Definition reckon_predict (S : NonlinSys R TT n m p) (o : sm S) (x : 'cV[R]_n) (P : 'M[R]_n) (u : 'cV[R]_m) (dt : TT)
  : outcome (sm S * 'cV[R]_n * 'M[R]_n) :=
  let* o1 := sm_upd o x u dt in Ok (o1, ns_g o1, P).
Definition reckon_correct (S : NonlinSys R TT n m p) (M : forall k, NonlinMeas R TT n k) k (o : sm S) (q : mm (M k)) (x : 'cV[R]_n) (P : 'M[R]_n)
    (z : 'cV[R]_k) (dt : TT) : outcome (sm S * mm (M k) * 'cV[R]_n * 'M[R]_n) :=
  let* q1 := mm_upd q x dt in
  if z == nm_h q1 then Ok (o, q1, sm_add o x 0, P) else Ub ub_uninit.
(** the same for linear models *)
Definition reckon_predict_lin (S : LinSys R TT n m p) (o : sm S) (x : 'cV[R]_n) (P : 'M[R]_n) (u : 'cV[R]_m) (dt : TT)
  : outcome (sm S * 'cV[R]_n * 'M[R]_n) :=
  let* o1 := sm_upd o x u dt in Ok (o1, sm_add o1 (ls_A o1 *m x) (ls_B o1 *m u), P).
Definition reckon_correct_lin (S : LinSys R TT n m p) (M : forall k, LinMeas R TT n k) k (o : sm S) (q : mm (M k)) (x : 'cV[R]_n) (P : 'M[R]_n)
    (z : 'cV[R]_k) (dt : TT) : outcome (sm S * mm (M k) * 'cV[R]_n * 'M[R]_n) :=
  let* q1 := mm_upd q x dt in
  if z == lm_C q1 *m x then Ok (o, q1, sm_add o x 0, P) else Ub ub_uninit.

(** the user's stationary functions treat the state alike whatever the covariance; a difference of equal
    measurements is zero (also for angles: C56) *)
Record covariance_blind (S : SysI R TT n m p) (O : SysOps S) (M : forall k, MeasI R TT n k) (MO : forall k, MeasOps (M k)) : Prop := {
  cb_make : forall o x P P', (so_make O o x P).1 = (so_make O o x P').1;
  cb_mmake : forall k (q : mm (M k)) x P P', (mo_make (MO k) q x P).1 = (mo_make (MO k) q x P').1;
  cb_sub : forall k (q : mm (M k)) z, mm_sub q z z = 0
}.
End Reckoning.

(** the state and its time are the reference's *)
Definition on_course (R : realFieldType) (TT : TimeOps) (n m : nat) (F F' : FilterAlg R TT n m) (s1 : St (alg_env F)) (s2 : St (alg_env F')) : Prop :=
  getState s1 = getState s2 /\ getStateTime s1 = getStateTime s2.
(** as long as the reference runs, the filter is on its course, or it has met a singular innovation covariance *)
Definition stays_on_course (R : realFieldType) (TT : TimeOps) (n m : nat) (F F' : FilterAlg R TT n m)
    (r1 : outcome (St (alg_env F))) (r2 : outcome (St (alg_env F'))) : Prop :=
  forall s2, r2 = Ok s2 -> r1 = Ub ub_singular \/ exists s1, r1 = Ok s1 /\ on_course s1 s2.

Section Course.
Variables (R : realFieldType) (TT : TimeOps) (n m : nat) (F : FilterAlg R TT n m).
Variables (pr : fa_sys F -> 'cV[R]_n -> 'M[R]_n -> 'cV[R]_m -> TT -> outcome (fa_sys F * 'cV[R]_n * 'M[R]_n))
    (co : forall k, fa_sys F -> fa_meas F k -> 'cV[R]_n -> 'M[R]_n -> 'cV[R]_k -> TT -> outcome (fa_sys F * fa_meas F k * 'cV[R]_n * 'M[R]_n)).
Let F' := with_alg pr co.
Let sing (c : ub) := c = ub_singular.
Record courses : Prop := {
  co_make : forall o x P P', (fa_make (f := F) o x P).1 = (fa_make (f := F) o x P').1;
  co_mmake : forall k (q : fa_meas F k) x P P', (fa_mmake q x P).1 = (fa_mmake q x P').1;
  co_predict : forall o x P P' u dt, wrel sing (fun r1 r2 => r1.1 = r2.1) (fa_predict (f := F) o x P u dt) (pr o x P' u dt);
  co_correct : forall k o (q : fa_meas F k) x P P' z dt, wrel sing (fun r1 r2 => r1.1 = r2.1) (fa_correct o q x P z dt) (co o q x P' z dt)
}.
Hypothesis H : courses.
Let X (x1 : 'cV[R]_n) (_ : 'M[R]_n) (x2 : 'cV[R]_n) (_ : 'M[R]_n) := x1 = x2.
Let Ur (u1 u2 : 'cV[R]_m) : Prop := u1 = u2.
Let UNr (u1 u2 : DV R) : Prop := u1 = u2.
Let Wr (u1 u2 : 'M[R]_m) : Prop := u1 = u2.
Let Sr (u1 u2 : fa_sys F) : Prop := u1 = u2.
Let Mr (i k : nat) (a b : fa_meas F k) : Prop := a = b.
Let Zr (i k : nat) (z1 : 'cV[R]_k) (Q1 : 'M[R]_k) (z2 : 'cV[R]_k) (Q2 : 'M[R]_k) : Prop := z1 = z2 /\ Q1 = Q2.

Lemma UDc_eq v1 v2 : UD Ur UNr v1 v2 <-> v1 = v2.
Proof.
split; first by case=> [[u1 [u2 [-> -> ->]]]|[_ _ ->]].
move=> <-; case: v1 => k u; have [e|ne] := k =P m; last by right.
by subst k; left; exists u, u.
Qed.
Lemma courses_follow : AlgFollows (F1 := F) (F2 := F') X Ur UNr Wr Sr Mr Mr Zr sing.
Proof.
split => //=.
- by move=> s1 s2 ->.
- by move=> s1 s2 r1 r2 -> ->.
- by move=> s1 s2 ->.
- by move=> s1 s2 x1 p1 x2 p2 d1 d2 -> -> /UDc_eq->.
- by move=> s1 s2 x1 p1 x2 p2 d1 d2 -> -> /UDc_eq->.
- by move=> s1 s2 x1 p1 x2 p2 d1 d2 -> -> /UDc_eq-> _; rewrite /X (co_make H _ _ p1 p2).
- move=> s1 s2 x1 p1 x2 p2 u1 u2 dt -> -> ->; apply: wrel_impl; last exact: (co_predict H).
  by move=> [[a b] c] [[a' b'] c'] /= [-> ->].
- by move=> i k a b z1 z2 Q1 Q2 -> [_ ->].
- by move=> i k a b ->.
- by move=> i k a b x1 p1 x2 p2 z1 z2 Q1 Q2 -> -> [-> _].
- by move=> i k a b x1 p1 x2 p2 z1 z2 Q1 Q2 -> -> [-> _].
- by move=> i k a b x1 p1 x2 p2 z1 z2 Q1 Q2 -> -> [-> _] _; rewrite /X (co_mmake H _ _ p1 p2).
- move=> i k s1 s2 a b x1 p1 x2 p2 z1 z2 Q1 Q2 dt -> -> -> [-> _]; apply: wrel_impl; last exact: (co_correct H).
  by move=> [[[a1 b1] c1] d1] [[[a' b'] c'] d'] /= [-> -> ->].
Qed.
Lemma meas_eq j (l1 l2 : list (DMeas F)) : meas_rel (E1 := alg_env F) (E2 := alg_env F') (MD (F1 := F) (F2 := F') Mr) j l1 l2 <-> l1 = l2.
Proof.
split; last by move=> ->; elim: l2 j => // [[k q]] l' IH j /=; split => //; exists k, q, q.
by elim: l1 l2 j => [|a l1 IH] [|b l2] j //= [[k [q1 [q2 [-> -> <-]]]] /IH <-].
Qed.
Lemma course_run (L : Lib (alg_env F)) (L' : Lib (alg_env F')) sy (ms : list (DMeas F)) (x : 'cV[R]_n) (P : 'M[R]_n) (t : TT) ops :
  same_lib L L' -> List.Forall (keeps (F := F) (fun _ => True) (fun _ _ => True)) ops ->
  @stays_on_course R TT n m F F' (run L ops (new_filter (E := alg_env F) sy ms (dv x) (dm P) t))
    (run L' (map (recall pr co) ops) (new_filter (E := alg_env F') sy ms (dv x) (dm P) t)).
Proof.
move=> hL ho s2 e2.
have ho' : List.Forall2 (op_rel (E1 := alg_env F) (E2 := alg_env F') (XD X) (UD Ur UNr) Sr (MD (F1 := F) (F2 := F') Mr) (ZD Zr)) ops (map (recall pr co) ops).
  have hz i z Q : ZD Zr i z Q z Q.
    case: z Q => [k z] [k' Q]; have [e|ne] := k =P k'; last by right.
    by subst k'; left; exists k, z, z, Q, Q.
  elim: ho => [|o l h _ IH] /=; constructor => //; case: o h => //=.
  - by move=> y V t0 [y' [V' [-> ->]]]; split => //; exists y', V', y', V'.
  - by move=> u t0 _; split => //; apply/UDc_eq.
  - by move=> z Q t0 k _; do 2 split => //; case: k.
  - by move=> u t0 _; split => //; apply/UDc_eq.
  - by move=> z Q t0 k _; do 2 split => //; case: k.
  - by move=> f hf s1 s0 ->.
  - by move=> f hf l1 l2 /meas_eq<-; apply/meas_eq.
have := alg_run_fw courses_follow t hL (erefl : Sr sy sy) ((meas_eq 0 ms ms).2 erefl) (erefl : X x P x P) ho'.
rewrite e2; case: (run L _ _) => [s1|c] /=; last by move=> ->; left.
by move=> [[y1 [P1 [y2 [P2 [h1 h2 h3 h4 h5]]]]] h6]; right; exists s1; split => //; split => //; rewrite h1 h3 h5.
Qed.
End Course.

(** ** C106 *)
Lemma zput0 (R : realFieldType) n s (f : 'I_s -> 'I_n) : zput1 f (0 : 'cV[R]_s) = 0.
Proof.
rewrite /zput1 /put1; elim: (enum 'I_s) => //= i l IH.
by have -> : (\col_j (if j == f i then (0 : 'cV[R]_s) i 0 else (0 : 'cV[R]_n) j 0)) = 0 by apply/matrixP => a b; rewrite !mxE; case: ifP.
Qed.
Lemma get0 (R : realFieldType) n s (f : 'I_s -> 'I_n) : get1 f (0 : 'cV[R]_n) = 0.
Proof. by apply/matrixP => a b; rewrite !mxE. Qed.

Section C106.
Variables (R : realFieldType) (TT : TimeOps) (n m p : nat).
Section Nonlinear.
Variables (S : NonlinSys R TT n m p) (O : SysOps S) (M : forall k, NonlinMeas R TT n k) (MO : forall k, MeasOps (M k)).
Theorem C106_ekf : let EKF := ekf_alg O MO in let DR := with_alg (F := EKF) (@reckon_predict R TT n m p S) (@reckon_correct R TT n m p S M) in
  forall (L : Lib (alg_env EKF)) (L' : Lib (alg_env DR)) (sy : sm S) (ms : list (DMeas EKF)) (x : 'cV[R]_n) (P : 'M[R]_n) (t : TT) ops,
  covariance_blind O MO -> same_lib L L' -> List.Forall (keeps (F := EKF) (fun _ => True) (fun _ _ => True)) ops ->
  @stays_on_course R TT n m EKF DR (run L ops (new_filter (E := alg_env EKF) sy ms (dv x) (dm P) t))
    (run L' (map (recall _ _) ops) (new_filter (E := alg_env DR) sy ms (dv x) (dm P) t)).
Proof.
move=> EKF DR L L' sy ms x P t ops H hL ho; apply: course_run => //; split => /=.
- exact: (cb_make H).
- exact: (cb_mmake H).
- by move=> o y V V' u dt; rewrite /ekf_predict /reckon_predict; case: (sm_upd _ _ _ _).
- move=> k o q y V V' z dt; rewrite /ekf_correct /reckon_correct.
  case: (mm_upd _ _ _) => //= q1; case: eqP => [->|_]; last by case: (let* r := _ in _).
  by rewrite /inverse; case: ifP => //= _; rewrite (cb_sub H) mulmx0.
Qed.
Theorem C106_ekfvs : let EKFVS := ekfvs_alg O MO in let DR := with_alg (F := EKFVS) (@reckon_predict R TT n m p S) (@reckon_correct R TT n m p S M) in
  forall (L : Lib (alg_env EKFVS)) (L' : Lib (alg_env DR)) (sy : sm S) (ms : list (DMeas EKFVS)) (x : 'cV[R]_n) (P : 'M[R]_n) (t : TT) ops,
  covariance_blind O MO -> same_lib L L' -> List.Forall (keeps (F := EKFVS) (fun _ => True) (fun _ _ => True)) ops ->
  @stays_on_course R TT n m EKFVS DR (run L ops (new_filter (E := alg_env EKFVS) sy ms (dv x) (dm P) t))
    (run L' (map (recall _ _) ops) (new_filter (E := alg_env DR) sy ms (dv x) (dm P) t)).
Proof.
move=> EKF DR L L' sy ms x P t ops H hL ho; apply: course_run => //; split => /=.
- exact: (cb_make H).
- exact: (cb_mmake H).
- by move=> o y V V' u dt; rewrite /ekfvs_predict /reckon_predict; case: (sm_upd _ _ _ _).
- move=> k o q y V V' z dt; rewrite /ekfvs_correct /reckon_correct.
  case: (mm_upd _ _ _) => //= q1; case: eqP => [->|_]; last by case: (let* r := _ in _).
  rewrite /ekfvs_correct_with /inverse; case: ifP => //= _.
  by rewrite (cb_sub H) get0 mulmx0 zput0.
Qed.
End Nonlinear.
Section Linear.
Variables (S : LinSys R TT n m p) (O : SysOps S) (M : forall k, LinMeas R TT n k) (MO : forall k, MeasOps (M k)).
Theorem C106_kf : let KF := kf_alg O MO in let DR := with_alg (F := KF) (@reckon_predict_lin R TT n m p S) (@reckon_correct_lin R TT n m p S M) in
  forall (L : Lib (alg_env KF)) (L' : Lib (alg_env DR)) (sy : sm S) (ms : list (DMeas KF)) (x : 'cV[R]_n) (P : 'M[R]_n) (t : TT) ops,
  covariance_blind O MO -> same_lib L L' -> List.Forall (keeps (F := KF) (fun _ => True) (fun _ _ => True)) ops ->
  @stays_on_course R TT n m KF DR (run L ops (new_filter (E := alg_env KF) sy ms (dv x) (dm P) t))
    (run L' (map (recall _ _) ops) (new_filter (E := alg_env DR) sy ms (dv x) (dm P) t)).
Proof.
move=> KF DR L L' sy ms x P t ops H hL ho; apply: course_run => //; split => /=.
- exact: (cb_make H).
- exact: (cb_mmake H).
- by move=> o y V V' u dt; rewrite /kf_predict /reckon_predict_lin; case: (sm_upd _ _ _ _).
- move=> k o q y V V' z dt; rewrite /kf_correct /reckon_correct_lin.
  case: (mm_upd _ _ _) => //= q1; case: eqP => [->|_]; last by case: (let* r := _ in _).
  by rewrite /inverse; case: ifP => //= _; rewrite (cb_sub H) mulmx0.
Qed.
End Linear.
End C106.

(** *** Witness: the state is squared at each step, its powers are measured; a late measurement is replayed *)
Section Witness106.
Variable R : rcfType.
Definition wx_g (y : 'cV[R]_2) : 'cV[R]_2 := \col_i (y i 0) ^+ 2.
Definition wx_h (y : 'cV[R]_2) : 'cV[R]_1 := \col_i (y 0 0) ^+ i.+2.
Definition wx_calls (F : FilterAlg R ZTime 2 1) (x : 'cV[R]_2) : list (Op (E := alg_env F)) :=
  [:: OpParams (E := alg_env F) (@mkParams ZTime true (zt 10) true);
      OpPredictT (E := alg_env F) (zt 1); OpPredictT (E := alg_env F) (zt 3);
      OpCorrect (E := alg_env F) (dv (wx_h (wx_g (wx_g x)))) (dm (1%:M : 'M[R]_1)) (zt 2) (Some 0%nat);
      OpCorrect (E := alg_env F) (dv (wx_h (wx_g (wx_g (wx_g x))))) (dm (1%:M : 'M[R]_1)) (zt 3) (Some 0%nat)].
Let EKF := ekf_alg (q_ops R) (q_mops R).
Let DR := with_alg (F := EKF) (@reckon_predict R ZTime 2 1 2 (q_sys R)) (@reckon_correct R ZTime 2 1 2 (q_sys R) (q_fam R)).
Let E := alg_env DR.
Definition wx_core (x : 'cV[R]_2) (t : ZTime) (pv : FInput E) (s : 'cV[R]_2) (q : 'cV[R]_2) (Q : 'M[R]_1) : Core E :=
  @mkCore _ E (@mkFState _ E (dv x) (dm (1%:M : 'M[R]_2)) t pv) (dv (0 : 'cV[R]_0)) (dm (0 : 'M[R]_0)) (s, (1%:M : 'M[R]_1)) [:: dmeas (F := DR) (k := 1) (q, Q)].
Definition wx_cinp (t1 : Z) : FInput E := @mkInput _ E (dv (0 : 'cV[R]_0)) (dm (1%:M : 'M[R]_1)) (zt t1) true None.
Definition wx_minp (y : 'cV[R]_2) (t1 : Z) : FInput E := @mkInput _ E (dv (wx_h y)) (dm (1%:M : 'M[R]_1)) (zt t1) false (Some 0%nat).
Definition wx_st c h : St E := @mkSt _ E (@mkParams ZTime true (zt 10) true) c h [::] [::].
Lemma wx_control x t t1 pv s q Q : input_core (wx_core x (zt t) pv s q Q) (wx_cinp t1) = Ok (wx_core (wx_g x) (zt t1) (wx_cinp t1) x q Q).
Proof.
rewrite /input_core /applyControlInput /= /control_update /= !mat_of_dm /= !vec_of_dv /=.
rewrite /set_prev /set_ts /= /wx_core.
have -> // : ZFin (t + (t1 - t)) = zt t1 by rewrite Zplus_minus.
Qed.
Lemma wx_meas0 x t pv s q Q : input_core (wx_core x (zt t) pv s q Q) (wx_minp x t) = Ok (wx_core x (zt t) (wx_minp x t) s x 1%:M).
Proof.
rewrite /input_core /applyMeasurementInput /= /advance_if_needed /= Z.sub_diag /= /meas_update /= !mat_of_dm /= !vec_of_dv /=.
by rewrite /reckon_correct /= eqxx /= /add_default addr0.
Qed.
Lemma wx_meas x t t1 pv s q Q : Z.ltb 0 (t1 - t) -> input_core (wx_core x (zt t) pv s q Q) (wx_minp (wx_g x) t1) = Ok (wx_core (wx_g x) (zt t1) (wx_minp (wx_g x) t1) x (wx_g x) 1%:M).
Proof.
move=> h; rewrite /input_core /applyMeasurementInput /= /advance_if_needed /= h.
rewrite /applyControlInput /= /control_update /= !mat_of_dm /= !vec_of_dv /= /meas_update /= !mat_of_dm /= !vec_of_dv /=.
rewrite /reckon_correct /= eqxx /= /add_default addr0 /set_prev /set_ts /= /wx_core.
have -> // : ZFin (t + (t1 - t)) = zt t1 by rewrite Zplus_minus.
Qed.
Opaque input_core.
Definition wx_f (x : 'cV[R]_2) (t : Z) pv : FState E := @mkFState _ E (dv x) (dm (1%:M : 'M[R]_2)) (zt t) pv.
Let GL := gnu_lib E.
Lemma wx_s1 x pv s q Q : step GL (wx_st (wx_core x (zt 0) pv s q Q) [::]) (OpPredictT (E := E) (zt 1))
  = Ok (wx_st (wx_core (wx_g x) (zt 1) (wx_cinp 1) x q Q) [:: wx_f x 0 pv]).
Proof. by rewrite /step /predict_t /applyInput; have := wx_control x 0 1 pv s q Q; rewrite /wx_cinp /= => ->. Qed.
Lemma wx_s2 x pv s q Q f : step GL (wx_st (wx_core x (zt 1) pv s q Q) [:: f]) (OpPredictT (E := E) (zt 3))
  = Ok (wx_st (wx_core (wx_g x) (zt 3) (wx_cinp 3) x q Q) [:: f; wx_f x 1 pv]).
Proof. by rewrite /step /predict_t /applyInput; have := wx_control x 1 3 pv s q Q; rewrite /wx_cinp /= => ->. Qed.
Lemma wx_s3 x y s q Q f pv : f_ts f = zt 0 ->
  step GL (wx_st (wx_core y (zt 3) (wx_cinp 3) s q Q) [:: f; wx_f x 1 pv]) (OpCorrect (E := E) (dv (wx_h (wx_g x))) (dm (1%:M : 'M[R]_1)) (zt 2) (Some 0%nat))
  = Ok (wx_st (wx_core (wx_g (wx_g x)) (zt 3) (wx_cinp 3) (wx_g x) (wx_g x) 1%:M) [:: f; wx_f x 1 pv; wx_f (wx_g x) 2 (wx_minp (wx_g x) 2)]).
Proof.
move=> h; rewrite /step /correct /apply_late /rewindHistory /= h /= /applyBatchInputs /= /applyInput.
have := @wx_meas x 1%Z 2%Z pv s q Q erefl; rewrite /wx_minp /wx_core /= => -> /=.
have := wx_control (wx_g x) 2 3 (wx_minp (wx_g x) 2) x (wx_g x) 1%:M; rewrite /wx_minp /wx_core /= => -> /=.
by [].
Qed.
Lemma wx_s4 x s q Q f1 f2 f3 : f_ts f1 = zt 0 -> f_ts f2 = zt 1 -> f_ts f3 = zt 2 ->
  exists h, step GL (wx_st (wx_core x (zt 3) (wx_cinp 3) s q Q) [:: f1; f2; f3]) (OpCorrect (E := E) (dv (wx_h x)) (dm (1%:M : 'M[R]_1)) (zt 3) (Some 0%nat))
  = Ok (wx_st (wx_core x (zt 3) (wx_minp x 3) s x 1%:M) h).
Proof.
move=> h1 h2 h3; rewrite /step /correct /apply_late /= /applyBatchInputs /= /applyInput.
have := wx_meas0 x 3 (wx_cinp 3) s q Q; rewrite /wx_minp /= => -> /=.
by eexists.
Qed.
Example C106_nonvacuous (x : 'cV[R]_2) :
  covariance_blind (q_ops R) (q_mops R) /\ List.Forall (keeps (F := EKF) (fun _ => True) (fun _ _ => True)) (wx_calls EKF x)
  /\ exists s2, run (gnu_lib (alg_env DR)) (map (recall (F := EKF) _ _) (wx_calls EKF x))
       (new_filter (E := alg_env DR) (0, 1%:M) [:: dmeas (F := DR) (k := 1) (0, 0)] (dv x) (dm (1%:M : 'M[R]_2)) (zt 0)) = Ok s2
     /\ getState s2 = dv (wx_g (wx_g (wx_g x))).
Proof.
split; first by split => //= k q0 z; rewrite /sub_default subrr.
split; first by do 5 constructor => //=.
have e1 := wx_s1 x default_input 0 0 0.
have e2 := @wx_s2 (wx_g x) (wx_cinp 1) x 0 0 (wx_f x 0 default_input).
have e3 := @wx_s3 (wx_g x) (wx_g (wx_g x)) (wx_g x) 0 0 (wx_f x 0 default_input) (wx_cinp 1) erefl.
have [h e4] := @wx_s4 (wx_g (wx_g (wx_g x))) (wx_g (wx_g x)) (wx_g (wx_g x)) 1%:M (wx_f x 0 default_input) (wx_f (wx_g x) 1 (wx_cinp 1))
   (wx_f (wx_g (wx_g x)) 2 (wx_minp (wx_g (wx_g x)) 2)) erefl erefl erefl.
exists (wx_st (wx_core (wx_g (wx_g (wx_g x))) (zt 3) (wx_minp (wx_g (wx_g (wx_g x))) 3) (wx_g (wx_g x)) (wx_g (wx_g (wx_g x))) 1%:M) h); split => //.
transitivity (Outcome.obind (step GL (wx_st (wx_core x (zt 0) default_input 0 0 0) [::]) (OpPredictT (E := E) (zt 1))) (fun s1 =>
  Outcome.obind (step GL s1 (OpPredictT (E := E) (zt 3))) (fun s2 =>
  Outcome.obind (step GL s2 (OpCorrect (E := E) (dv (wx_h (wx_g (wx_g x)))) (dm (1%:M : 'M[R]_1)) (zt 2) (Some 0%nat))) (fun s3 =>
  Outcome.obind (step GL s3 (OpCorrect (E := E) (dv (wx_h (wx_g (wx_g (wx_g x))))) (dm (1%:M : 'M[R]_1)) (zt 3) (Some 0%nat))) (fun s4 => Ok s4))))); first exact: erefl.
by rewrite e1; cbn [Outcome.obind]; rewrite e2; cbn [Outcome.obind]; rewrite e3; cbn [Outcome.obind]; rewrite e4.
Qed.
End Witness106.

(** ** C107: the UKF *)
(** a prediction without a control, straight after construction *)
Lemma one_predict (R : realFieldType) n m (F : FilterAlg R ZTime n m) (sy : fa_sys F) (ms : list (DMeas F)) (x : 'cV[R]_n) (P : 'M[R]_n) r :
  fa_check sy = false -> fa_predict (fa_setRc sy (fa_Rc sy)) x P 0 (zt 1) = Ok r ->
  exists s, run (gnu_lib (alg_env F)) [:: OpPredictT (E := alg_env F) (zt 1)] (new_filter (E := alg_env F) sy ms (dv x) (dm P) (zt 0)) = Ok s /\ getState s = dv r.1.2.
Proof.
move=> hc; case: r => [[o y] V] e.
rewrite /run /= /predict_t /= /applyInput /input_core /applyControlInput /choose_control /= /control_update /= hc /= !mat_of_dm /= !vec_of_dv /= e /=.
by eexists.
Qed.

Section C107.
Variables (R : rcfType) (TT : TimeOps) (n m p : nat).
Variables (S : NonlinSys R TT n m p) (O : SysOps S) (M : forall k, NonlinMeas R TT n k) (MO : forall k, MeasOps (M k)).
(** the call on a UKF with the same models *)
Definition ukf_call (o : Op (E := alg_env (ekf_alg O MO))) : Op (E := alg_env (ukf_alg O MO)) :=
  let E := alg_env (ukf_alg O MO) in
  match o with
  | OpInit x P t => OpInit (E := E) x P t
  | OpPredictT t => OpPredictT (E := E) t
  | OpPredictU u t => OpPredictU (E := E) u t
  | OpCorrect z Q t i => OpCorrect (E := E) z Q t i
  | OpEnqC u t => OpEnqC (E := E) u t
  | OpEnqM z Q t i => OpEnqM (E := E) z Q t i
  | OpProcess => OpProcess (E := E)
  | OpClearC => OpClearC (E := E)
  | OpClearM => OpClearM (E := E)
  | OpRevert t => OpRevert (E := E) t
  | OpParams q => OpParams (E := E) q
  | OpSys f => OpSys (E := E) (fun o => (f o.1, o.2))
  | OpMeas f => OpMeas (E := E) f
  end.
End C107.

(** The reference is the one of C106; the covariance is positive definite, the sigma points are the default ones. *)
Definition C107_claim (R : rcfType) : Prop :=
  forall (TT : TimeOps) n m p (S : NonlinSys R TT n m p) (O : SysOps S) (M : forall k, NonlinMeas R TT n k) (MO : forall k, MeasOps (M k)),
  let UKF := ukf_alg O MO in let EKF := ekf_alg O MO in
  let DR := with_alg (F := EKF) (@reckon_predict R TT n m p S) (@reckon_correct R TT n m p S M) in
  forall (L : Lib (alg_env UKF)) (L' : Lib (alg_env DR)) (sy : sm S) par (ms : list (DMeas EKF)) (x : 'cV[R]_n) (P : 'M[R]_n) (t : TT) ops,
  default_sys S -> (forall k, default_meas (M k)) -> covariance_blind O MO -> default_sigma R n = Ok par -> pd P ->
  same_lib L L' -> List.Forall (keeps (F := EKF) (fun _ => True) (fun _ _ => True)) ops ->
  @stays_on_course R TT n m UKF DR (run L (map (ukf_call (MO := MO)) ops) (new_filter (E := alg_env UKF) (sy, par) ms (dv x) (dm P) t))
    (run L' (map (recall _ _) ops) (new_filter (E := alg_env DR) sy ms (dv x) (dm P) t)).

(** one state, squared at each step: the UKF predicts x^2 + P *)
Section Refute107.
Variable R : rcfType.
Add Field Rfield : (mc_field R).
Definition sq_sys : NonlinSys R ZTime 1 1 1 := fn_sys ZTime (fun y : 'cV[R]_1 => \col_i (y i 0) ^+ 2) (fun y => 0) 1%:M (0 : 'M[R]_1) 1%:M [::] [::].
Definition sq_ops : SysOps sq_sys := @const_sys_ops R ZTime 1 1 1 sq_sys (fun o (Rc : 'M[R]_1) => (o.1, Rc)).
Definition sq_fam (k : nat) : NonlinMeas R ZTime 1 k := fn_meas ZTime (fun y : 'cV[R]_1 => 0) (fun y => 0) [::].
Definition sq_mops (k : nat) : MeasOps (sq_fam k) := @const_meas_ops R ZTime 1 k (sq_fam k) (fun q (Q : 'M[R]_k) => (q.1, Q)).
Theorem C107_mean (o : sm sq_sys) (x P u : 'M[R]_1) dt par alpha kappa beta : set_sigma 1 alpha kappa beta = Ok par -> 0 < alpha ^+ 2 * (1%:R + kappa) -> pd P ->
  exists o' P', ukf_predict par o x P u dt = Ok (o', x *m x + P, P').
Proof.
move=> hs hc pP; have dS : default_sys sq_sys by [].
have [||o' [x' [P' e]]] := @C51_predict_defined _ _ _ _ _ sq_sys _ _ _ _ hs o x P u dt (fun _ => True) => //.
  by move=> o0 y _; eexists.
exists o', P'; rewrite e; congr (Ok (_, _, _)).
have [||o1 [yh [yl [[<-] qh ql _ [-> _]]]]] := @predict_shape _ _ _ _ _ _ dS _ _ _ _ hs _ _ _ _ _ _ _ _ (fun _ => True) (fun _ => True) (fun y g => g = \col_i (y i 0) ^+ 2) _ _ e => //.
  by move=> o2 y o3 _ [<-].
have [_ cE nz _ _] := set_sigma_ok hs.
have pL : pd ((1%:R + up_lambda par) *: P) by apply: pdZ => //; rewrite cE.
have LL := llt_correct pL.
set c := 1%:R + _ in qh ql nz cE LL pL *; set L := llt_L _ in qh ql LL.
clearbody L.
have Lc : col 0 L = L by apply/matrixP => i j; rewrite !mxE ord1 [j]ord1.
have l2 : L 0 0 ^+ 2 = c * P 0 0.
  by move/matrixP/(_ 0 0): LL; rewrite !mxE big_ord1 !mxE expr2.
apply/matrixP => i j; rewrite ord1 [j]ord1 {i j} !mxE !big_ord1 !mxE !qh !ql Lc !mxE /=.
have -> : P 0 0 = L 0 0 ^+ 2 / c by rewrite l2 mulrAC divff // mul1r.
have n2 : (2%:R : R) != 0 by rewrite pnatr_eq0.
have n3 : (1 + 1 : R) != 0 by [].
clearbody c; mcfield R; split; apply/eqP => //.
Qed.
Theorem C107_refuted : ~ C107_claim R.
Proof.
have [hc hb] := @default_ok R 1 erefl.
have [|par [hs _]] := @C49_weights R 1 (1 / 1000%:R) 0 2%:R; first by rewrite lt0r_neq0.
have [o' [P' e]] := @C107_mean (0, 1%:M) 0 1%:M 0 (zt 1) par _ _ _ hs hc (pd1 _ _).
move=> /(_ ZTime 1%N 1%N 1%N sq_sys sq_ops sq_fam sq_mops) C.
have H1 : fa_predict (f := ukf_alg sq_ops sq_mops) (fa_setRc (f := ukf_alg sq_ops sq_mops) ((0, 1%:M), par) 1%:M) 0 1%:M 0 (zt 1) = Ok (o', par, (0 : 'M[R]_1) *m (0 : 'M[R]_1) + 1%:M, P').
  by rewrite /= e.
have [s1 [E1 e1]] := @one_predict R 1 1 (ukf_alg sq_ops sq_mops) ((0, 1%:M), par) [::] 0 1%:M _ erefl H1.
pose DR := with_alg (F := ekf_alg sq_ops sq_mops) (@reckon_predict R ZTime 1 1 1 sq_sys) (@reckon_correct R ZTime 1 1 1 sq_sys sq_fam).
have [s2 [E2 e2]] := @one_predict R 1 1 DR (0, 1%:M) [::] 0 1%:M _ erefl erefl.
have cb : covariance_blind sq_ops sq_mops by split => //= k q z; rewrite /sub_default subrr.
have dS : default_sys sq_sys by [].
have dM k : default_meas (sq_fam k) by [].
have C0 := C (gnu_lib _) (gnu_lib _) (0, 1%:M) par [::] 0 1%:M (zt 0) [:: OpPredictT (zt 1)] dS dM cb hs (pd1 _ _) (gnu_same_lib _ _).
have {}C0 := C0 (List.Forall_cons (OpPredictT (zt 1)) I (List.Forall_nil _)).
have [] := C0 _ E2; first by rewrite E1.
rewrite E1 => -[s3 [[<-] []]]; rewrite e1 e2 /= => /eqP; rewrite eq_sym.
move=> /eqP /(congr1 (vec_of 1)); rewrite !vec_of_dv => -[] /matrixP/(_ 0 0) /eqP.
by rewrite mul0mx add0r !mxE eqxx /= expr0n /= eq_sym oner_eq0.
Qed.
End Refute107.

(** On affine models the UKF keeps the course: it gives what the EKF gives (C50), and the EKF keeps it (C106). *)
Section Affine107.
Variables (R : rcfType) (TT : TimeOps) (n m p : nat).
Variables (S : NonlinSys R TT n m p) (O : SysOps S) (M : forall k, NonlinMeas R TT n k) (MO : forall k, MeasOps (M k)).
Variables (A : sm S -> TT -> 'M[R]_n) (b : sm S -> 'cV[R]_m -> TT -> 'cV[R]_n) (W : sm S -> 'M[R]_m -> TT -> 'M[R]_n).
Variables (C : forall k, mm (M k) -> TT -> 'M[R]_(k, n)) (d : forall k, mm (M k) -> TT -> 'cV[R]_k).
Theorem C107_affine_partial :
  let UKF := ukf_alg O MO in let EKF := ekf_alg O MO in
  let DR := with_alg (F := EKF) (@reckon_predict R TT n m p S) (@reckon_correct R TT n m p S M) in
  forall (L : Lib (alg_env UKF)) (L0 : Lib (alg_env EKF)) (L' : Lib (alg_env DR)) (sy : sm S) par (ms : list (DMeas EKF)) (x : 'cV[R]_n) (P : 'M[R]_n) (t : TT) ops,
  default_sys S -> (forall k, default_meas (M k)) -> affine_sys O A b W -> affine_meas MO C d -> covariance_blind O MO ->
  psd (sm_Rc sy) -> pos_par n par -> pd P -> same_lib L0 L -> same_lib L0 L' ->
  List.Forall (fun o => same_call A b W C d o (ukf_call o)) ops ->
  @stays_on_course R TT n m UKF DR (run L (map (ukf_call (MO := MO)) ops) (new_filter (E := alg_env UKF) (sy, par) ms (dv x) (dm P) t))
    (run L' (map (recall _ _) ops) (new_filter (E := alg_env DR) sy ms (dv x) (dm P) t)).
Proof.
move=> UKF EKF DR L L0 L' sy par ms x P t ops dS dM aS aM cb pR hp pP hL hL' ho s2 e2.
have ho1 : List.Forall2 (same_call (O := O) (MO := MO) A b W C d) ops (map (ukf_call (MO := MO)) ops).
  by elim: ho => [|o l h _ IH]; constructor.
have ho2 : List.Forall (keeps (F := EKF) (fun _ => True) (fun _ _ => True)) ops.
  elim: ho => [|o l h _ IH]; constructor => //.
  case: h => //=; [by move=> y V t0 pV; exists y, V|by move=> *; apply/List.Forall_forall].
have := C50_run dS dM aS aM ms x t hL pR hp pP ho1.
have := @C106_ekf R TT n m p S O M MO L0 L' sy ms x P t ops cb hL' ho2 s2 e2.
case=> [->|[s1 [-> [h1 h2]]]]; case: (run L _ _) => [s3|c] //=.
- by move=> <-; left.
- by move=> [[h3 _ h4] _]; right; exists s3; split => //; split; rewrite -?h3 -?h4.
Qed.
End Affine107.
Example C107_nonvacuous (R : rcfType) (u z : 'cV[R]_1) (w : 'cV[R]_2) :
  covariance_blind (wr_ops R) (wr_mops R) /\
  List.Forall (fun o => same_call (O := wr_ops R) (MO := wr_mops R) (fun _ _ => wr_A R) (fun _ u _ => wr_B R *m u) (fun _ Rc _ => 1%:M + wr_B R *m Rc *m (wr_B R)^T)
      (fun k _ _ => wr_C R k) (fun k _ _ => 0) o (ukf_call o)) (wr_calls (ekf_alg (wr_ops R) (wr_mops R)) u z w).
Proof.
split; first by split => //= k q y; rewrite /sub_default subrr.
rewrite /wr_calls; constructor; first exact: sc_predictU.
constructor; first by apply: sc_enqM; exact: pd1.
constructor; first by apply: sc_correct; exact: pd1.
constructor; first by apply: sc_correct; exact: pd1.
constructor; first exact: sc_predictT.
constructor; first exact: sc_process.
by constructor; first exact: sc_revert.
Qed.
