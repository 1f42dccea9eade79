(** Properties of whole runs that relate two filters: C92 (the covariance of a KalmanFilter does not
    depend on the data), C93 (coordinates and units), C94 (states that nothing depends on). *)
From mathcomp Require Import all_ssreflect all_algebra.
From Coq Require Import ZArith.
From Verif Require Import Outcome FB_Model FB_Time FB_Trace FB_Sim McRing LinAlg KF_Algebra KF_Model FB_Alg FB_AlgSim KF_Filter Props_KF Props_KFRun.
Set Implicit Arguments.
Unset Strict Implicit.
Unset Printing Implicit Defensive.
Import GRing.Theory Num.Theory Order.TTheory.
Local Open Scope ring_scope.

(** the insertion sort of FB_Trace.v is the same function of the timestamps in any instance *)
Lemma gnu_same_lib (TT : TimeOps) (E1 E2 : Env TT) : same_lib (gnu_lib E1) (gnu_lib E2).
Proof.
split=> // Q hQ l1 l2 h; rewrite /= /isort_ts.
have hi i j a b : Q i j -> List.Forall2 Q a b -> List.Forall2 Q (ins_ts i a) (ins_ts j b).
  move=> hij; elim=> [|c d a' b' hcd hab IH] /=; first by constructor; [|constructor].
  by rewrite (hQ _ _ hij) (hQ _ _ hcd); case: (tlt _ _); constructor => //; constructor.
suff H a b : List.Forall2 Q a b -> List.Forall2 Q (List.fold_left (fun a i => ins_ts i a) l1 a) (List.fold_left (fun a i => ins_ts i a) l2 b) by apply: H; constructor.
by elim: h a b => //= i j l1' l2' hij _ IH a b hab; apply: IH; apply: hi.
Qed.

Lemma orel_eq A (x : outcome A) : orel (fun a b => a = b) x x.
Proof. by case: x. Qed.

(** ** C92 *)
Section C92.
Variables (R : realFieldType) (TT : TimeOps) (n m p : nat).
Variables (S : LinSys R TT n m p) (O : SysOps S) (M : forall k, LinMeas R TT n k) (MO : forall k, MeasOps (M k)).

(** [J] relates system model objects that hold the same matrices, whatever data they were updated with:
    A, P, V, Rp, Rc are functions of the model's own parameters and dt, not of x and u.  Stationary
    handling, which looks at the data, is off. *)
Record matrices_free_of_data (J : sm S -> sm S -> Prop) (JM : forall k, mm (M k) -> mm (M k) -> Prop) : Prop := {
  md_sys : forall o1 o2, J o1 o2 ->
    [/\ ls_A o1 = ls_A o2, sm_P o1 = sm_P o2, sm_V o1 = sm_V o2, sm_Rp o1 = sm_Rp o2 & sm_Rc o1 = sm_Rc o2];
  md_upd : forall o1 o2 x1 x2 u1 u2 dt, J o1 o2 -> orel J (sm_upd o1 x1 u1 dt) (sm_upd o2 x2 u2 dt);
  md_setRc : forall o1 o2 Rc, J o1 o2 -> J (so_setRc O o1 Rc) (so_setRc O o2 Rc);
  md_check : forall o, so_check O o = false;
  md_meas : forall k (q1 q2 : mm (M k)), JM k q1 q2 -> lm_C q1 = lm_C q2 /\ mm_cov q1 = mm_cov q2;
  md_mupd : forall k (q1 q2 : mm (M k)) x1 x2 dt, JM k q1 q2 -> orel (JM k) (mm_upd q1 x1 dt) (mm_upd q2 x2 dt);
  md_setCov : forall k (q1 q2 : mm (M k)) Q, JM k q1 q2 -> JM k (mo_setCov (MO k) q1 Q) (mo_setCov (MO k) q2 Q);
  md_mcheck : forall k (q : mm (M k)), mo_check (MO k) q = false
}.

(** the same calls with the same timestamps and covariances; states, controls and measurements may
    have different values (of the same sizes) *)
Definition same_size_D d (v w : DV R) : Prop := exists a b : 'cV[R]_d, v = dv a /\ w = dv b.
Definition same_but_values (J : sm S -> sm S -> Prop) (JM : forall k, mm (M k) -> mm (M k) -> Prop)
    (o1 o2 : Op (E := alg_env (kf_alg O MO))) : Prop :=
  match o1, o2 with
  | OpInit x1 P1 t1, OpInit x2 P2 t2 => [/\ t1 = t2, same_size_D n x1 x2 & exists P : 'M[R]_n, P1 = dm P /\ P2 = dm P]
  | OpPredictT t1, OpPredictT t2 => t1 = t2
  | OpPredictU u1 t1, OpPredictU u2 t2 | OpEnqC u1 t1, OpEnqC u2 t2 => t1 = t2 /\ vsize u1 = vsize u2
  | OpCorrect z1 Q1 t1 k1, OpCorrect z2 Q2 t2 k2 | OpEnqM z1 Q1 t1 k1, OpEnqM z2 Q2 t2 k2 =>
      [/\ t1 = t2, k1 = k2, vsize z1 = vsize z2 & Q1 = Q2]
  | OpProcess, OpProcess | OpClearC, OpClearC | OpClearM, OpClearM => True
  | OpRevert t1, OpRevert t2 => t1 = t2
  | OpParams p1, OpParams p2 => p1 = p2
  | OpSys f1, OpSys f2 => forall s1 s2, J s1 s2 -> J (f1 s1) (f2 s2)
  | OpMeas f1, OpMeas f2 => forall l1 l2, List.Forall2 (fun a b => exists k q1 q2, [/\ a = existT _ k q1, b = existT _ k q2 & JM k q1 q2]) l1 l2 ->
      List.Forall2 (fun a b => exists k q1 q2, [/\ a = existT _ k q1, b = existT _ k q2 & JM k q1 q2]) (f1 l1) (f2 l2)
  | _, _ => False
  end.

Variables (J : sm S -> sm S -> Prop) (JM : forall k, mm (M k) -> mm (M k) -> Prop).
Hypothesis H : matrices_free_of_data J JM.

Let F := kf_alg O MO.
Let X (_ : 'cV[R]_n) (P1 : 'M[R]_n) (_ : 'cV[R]_n) (P2 : 'M[R]_n) := P1 = P2.

Lemma c92_sim : AlgSim (F1 := F) (F2 := F) X (fun _ _ => True) (fun _ _ => True) (fun a b => a = b) J (fun _ => JM) (fun _ => JM) (fun _ k _ Q1 _ Q2 => Q1 = Q2).
Proof.
split => //=.
- by move=> s1 s2 /(md_sys H)[].
- by move=> s1 s2 r1 r2 h ->; apply: (md_setRc H).
- by move=> s1 s2 _; rewrite !(md_check H).
- by move=> s1 s2 x1 p1 x2 p2 d1 d2 _ _ _; rewrite (md_check H).
- by move=> s1 s2 x1 p1 x2 p2 d1 d2 _ _ _; rewrite (md_check H).
- by move=> s1 s2 x1 p1 x2 p2 d1 d2 _ _ _; rewrite (md_check H).
- move=> s1 s2 x1 p1 x2 p2 u1 u2 dt hs -> _.
  apply: orel_bind; first exact: (md_upd H _ _ _ _ _ hs).
  by move=> o1 o2 ho; split => //=; have [-> -> -> -> ->] := md_sys H ho.
- by move=> i k a b _ _ Q1 Q2 h ->; apply: (md_setCov H).
- by move=> i k a b _; rewrite !(md_mcheck H).
- by move=> i k a b *; move: (md_mcheck H a) => e; congruence.
- by move=> i k a b *; move: (md_mcheck H a) => e; congruence.
- by move=> i k a b *; move: (md_mcheck H a) => e; congruence.
- move=> i k s1 s2 a b x1 p1 x2 p2 z1 z2 Q1 Q2 dt hs hm -> hz.
  apply: orel_bind (_ : orel (fun r1 r2 => JM r1.1.1 r2.1.1 /\ r1.2 = r2.2) _ _) _; last first.
    by move=> [[q1 y1] P1] [[q2 y2] P2] [h1 h2]; split.
  apply: orel_bind; first exact: (md_mupd H _ _ _ hm).
  move=> q1 q2 hq; have [-> ->] := md_meas H hq.
  by apply: orel_bind; [exact: orel_eq|move=> c _ <-; split].
Qed.

Lemma c92_meas j l1 l2 : List.Forall2 (fun a b : DMeas F => exists k (q1 q2 : mm (M k)), [/\ a = existT _ k q1, b = existT _ k q2 & JM q1 q2]) l1 l2 <->
  meas_rel (E1 := alg_env F) (E2 := alg_env F) (MD (F1 := F) (F2 := F) (fun _ => JM)) j l1 l2.
Proof.
split.
  by move=> h; elim: h j => [//|a b l1' l2' h _ IH] j /=; split; [case: h => k [q1 [q2 [-> -> hq]]]; exists k, q1, q2|exact: IH].
elim: l1 l2 j => [|a l1 IH] [|b l2] j //= [[k [q1 [q2 [-> -> hq]]]] hl]; constructor; [by exists k, q1, q2|exact: IH hl].
Qed.

Lemma c92_op o1 o2 : same_but_values J JM o1 o2 ->
  op_rel (E1 := alg_env F) (E2 := alg_env F) (XD X) (UD (fun _ _ : 'cV[R]_m => True) (fun _ _ => True)) J (MD (F1 := F) (F2 := F) (fun _ => JM))
     (ZD (fun _ k _ Q1 _ Q2 => Q1 = Q2)) o1 o2.
Proof.
have hu (u1 u2 : DV R) : projT1 u1 = projT1 u2 -> UD (fun _ _ : 'cV[R]_m => True) (fun _ _ => True) u1 u2.
  case: u1 u2 => [d1 u1] [d2 u2] /= e; subst d2; have [e|ne] := d1 =P m; last by right.
  by left; subst d1; exists u1, u2.
have hz i (z1 z2 : DV R) (Q : DM R) : projT1 z1 = projT1 z2 -> ZD (fun _ k _ Q1 _ Q2 => Q1 = Q2) i z1 Q z2 Q.
  case: z1 z2 Q => [d1 u1] [d2 u2] [d3 Q] /= e; subst d2; have [e|ne] := d1 =P d3; last by right.
  by left; subst d3; exists d1, u1, u2, Q, Q.
case: o1 => [x1 P1 t1|t1|u1 t1|z1 Q1 t1 k1|u1 t1|z1 Q1 t1 k1||||t1|p1|f1|f1]; case: o2 => [x2 P2 t2|t2|u2 t2|z2 Q2 t2 k2|u2 t2|z2 Q2 t2 k2||||t2|p2|f2|f2] //=.
- move=> [-> [a [b [-> ->]]] [P [-> ->]]]; split => //; by exists a, P, b, P.
- by move=> [-> e]; split => //; apply: hu.
- by move=> [-> -> e ->]; do 2 split => //; case: k2 => // k; apply: hz.
- by move=> [-> e]; split => //; apply: hu.
- by move=> [-> -> e ->]; do 2 split => //; case: k2 => // k; apply: hz.
- by move=> h l1 l2 /c92_meas h1; apply/c92_meas; apply: h.
Qed.

(** Two filters that start with the same covariance and receive the same calls at the same times with the
    same covariances have the same covariance and the same time after every call, whatever the values of
    the initial states, the controls and the measurements (or both leave the defined behaviours). *)
Theorem C92_kf_covariance_free_of_data (L : Lib (alg_env F)) (sy1 sy2 : sm S) (ms1 ms2 : list (DMeas F)) (x1 x2 : 'cV[R]_n) (P : 'M[R]_n) (t : TT) ops1 ops2 :
  same_lib L L -> J sy1 sy2 ->
  List.Forall2 (fun a b => exists k (q1 q2 : mm (M k)), [/\ a = existT _ k q1, b = existT _ k q2 & JM q1 q2]) ms1 ms2 ->
  List.Forall2 (same_but_values J JM) ops1 ops2 ->
  orel (fun s1 s2 => getCovariance s1 = getCovariance s2 /\ getStateTime s1 = getStateTime s2)
    (run L ops1 (new_filter (E := alg_env F) sy1 ms1 (dv x1) (dm P) t))
    (run L ops2 (new_filter (E := alg_env F) sy2 ms2 (dv x2) (dm P) t)).
Proof.
move=> hL hs /(@c92_meas 0) hm ho.
have ho' : List.Forall2 (op_rel (E1 := alg_env F) (E2 := alg_env F) (XD X) (UD (fun _ _ : 'cV[R]_m => True) (fun _ _ => True)) J (MD (F1 := F) (F2 := F) (fun _ => JM))
     (ZD (fun _ k _ Q1 _ Q2 => Q1 = Q2))) ops1 ops2.
  by elim: ho => [|a b l1 l2 h _ IH]; constructor => //; exact: c92_op.
apply: orel_impl (alg_run_sim c92_sim t hL hs hm (_ : X x1 P x2 P) ho') => //.
by move=> s1 s2 [[y1 [P1 [y2 [P2 [_ -> _ -> e]]]]] ->]; rewrite e.
Qed.
End C92.

(** ** C93, C94: linear images *)
Section Image.
Variables (R : realFieldType) (TT : TimeOps) (n1 n2 m p1 p2 : nat).
(** the second filter estimates [Tx *m x]; its controls are [E *m u]; the measurements of the i-th model
    (of k entries) are [D i k *m z], an invertible change of units *)
Variables (Tx : 'M[R]_(n2, n1)) (E : 'M[R]_m) (D : nat -> forall k, 'M[R]_k).
Hypothesis uD : forall i k, D i k \in unitmx.

(** related controls, as given by the user: of the right size, or the same *)
Definition ctl_image (v1 v2 : DV R) : Prop := UD (fun u1 u2 => u2 = E *m u1) (fun v1 v2 => v1 = v2) v1 v2.

Section Sys.
Variables (S1 : SysI R TT n1 m p1) (O1 : SysOps S1) (S2 : SysI R TT n2 m p2) (O2 : SysOps S2).
(** the parts of the two system models that do not concern the process function: [J] relates the
    objects, [Jg] objects just updated with related arguments *)
Record image_sys (J : sm S1 -> sm S2 -> Prop) (Jg : sm S1 -> sm S2 -> 'cV[R]_n1 -> 'cV[R]_m -> Prop) : Prop := {
  im_Rc : forall o1 o2, J o1 o2 -> sm_Rc o2 = E *m sm_Rc o1 *m E^T;
  im_add : forall o1 o2 a b, J o1 o2 -> sm_add o2 (Tx *m a) (Tx *m b) = Tx *m sm_add o1 a b;
  im_setRc : forall o1 o2 Rc, J o1 o2 -> J (so_setRc O1 o1 Rc) (so_setRc O2 o2 (E *m Rc *m E^T));
  im_upd : forall o1 o2 x u dt, J o1 o2 ->
    orel (fun o1' o2' => [/\ J o1' o2', Jg o1' o2' x u & noise o2' = Tx *m noise o1' *m Tx^T])
         (sm_upd o1 x u dt) (sm_upd o2 (Tx *m x) (E *m u) dt);
  im_check : forall o1 o2, J o1 o2 -> so_check O1 o1 = so_check O2 o2;
  im_isStat : forall o1 o2 x d1 d2, J o1 o2 -> ctl_image d1 d2 -> so_check O1 o1 -> so_isStat O1 o1 x d1 = so_isStat O2 o2 (Tx *m x) d2;
  im_proc : forall o1 o2 x d1 d2, J o1 o2 -> ctl_image d1 d2 -> so_check O1 o1 -> J (so_proc O1 o1 x d1) (so_proc O2 o2 (Tx *m x) d2);
  im_make : forall o1 o2 x P d1 d2, J o1 o2 -> ctl_image d1 d2 -> so_check O1 o1 ->
    let r := so_make O1 (so_proc O1 o1 x d1) x P in
    so_make O2 (so_proc O2 o2 (Tx *m x) d2) (Tx *m x) (Tx *m P *m Tx^T) = (Tx *m r.1, Tx *m r.2 *m Tx^T)
}.
Variables (M1 : forall k, MeasI R TT n1 k) (MO1 : forall k, MeasOps (M1 k)) (M2 : forall k, MeasI R TT n2 k) (MO2 : forall k, MeasOps (M2 k)).
Record image_meas (J : nat -> forall k, mm (M1 k) -> mm (M2 k) -> Prop) (Jh : nat -> forall k, mm (M1 k) -> mm (M2 k) -> 'cV[R]_n1 -> Prop) : Prop := {
  imm_sub : forall i k (q1 : mm (M1 k)) (q2 : mm (M2 k)) a b, J i k q1 q2 -> mm_sub q2 (D i k *m a) (D i k *m b) = D i k *m mm_sub q1 a b;
  imm_cov : forall i k (q1 : mm (M1 k)) (q2 : mm (M2 k)), J i k q1 q2 -> mm_cov q2 = D i k *m mm_cov q1 *m (D i k)^T;
  imm_setCov : forall i k (q1 : mm (M1 k)) (q2 : mm (M2 k)) Q, J i k q1 q2 -> J i k (mo_setCov (MO1 k) q1 Q) (mo_setCov (MO2 k) q2 (D i k *m Q *m (D i k)^T));
  imm_upd : forall i k (q1 : mm (M1 k)) (q2 : mm (M2 k)) x dt, J i k q1 q2 ->
    orel (fun a b => J i k a b /\ Jh i k a b x) (mm_upd q1 x dt) (mm_upd q2 (Tx *m x) dt);
  imm_check : forall i k (q1 : mm (M1 k)) (q2 : mm (M2 k)), J i k q1 q2 -> mo_check (MO1 k) q1 = mo_check (MO2 k) q2;
  imm_isStat : forall i k (q1 : mm (M1 k)) (q2 : mm (M2 k)) x z, J i k q1 q2 -> mo_check (MO1 k) q1 ->
    mo_isStat (MO1 k) q1 x z = mo_isStat (MO2 k) q2 (Tx *m x) (D i k *m z);
  imm_proc : forall i k (q1 : mm (M1 k)) (q2 : mm (M2 k)) x z, J i k q1 q2 -> mo_check (MO1 k) q1 ->
    J i k (mo_proc (MO1 k) q1 x z) (mo_proc (MO2 k) q2 (Tx *m x) (D i k *m z));
  imm_make : forall i k (q1 : mm (M1 k)) (q2 : mm (M2 k)) x P z, J i k q1 q2 -> mo_check (MO1 k) q1 ->
    let r := mo_make (MO1 k) (mo_proc (MO1 k) q1 x z) x P in
    mo_make (MO2 k) (mo_proc (MO2 k) q2 (Tx *m x) (D i k *m z)) (Tx *m x) (Tx *m P *m Tx^T) = (Tx *m r.1, Tx *m r.2 *m Tx^T)
}.
End Sys.

(** related estimates and measurements *)
Definition est_image (x1 : 'cV[R]_n1) (P1 : 'M[R]_n1) (x2 : 'cV[R]_n2) (P2 : 'M[R]_n2) : Prop := x2 = Tx *m x1 /\ P2 = Tx *m P1 *m Tx^T.
Definition meas_image (i k : nat) (z1 : 'cV[R]_k) (Q1 : 'M[R]_k) (z2 : 'cV[R]_k) (Q2 : 'M[R]_k) : Prop :=
  z2 = D i k *m z1 /\ Q2 = D i k *m Q1 *m (D i k)^T.

(** the algebra of one correction *)
Lemma image_correct i k (P : 'M[R]_n1) (H1 : 'M[R]_(k, n1)) (H2 : 'M[R]_(k, n2)) (Q : 'M[R]_k) :
  H2 *m Tx = D i k *m H1 ->
  orel (fun i1 i2 => forall P2, P2 = Tx *m P *m Tx^T ->
          forall v : 'cV[R]_k, P2 *m H2^T *m i2 *m (D i k *m v) = Tx *m (P *m H1^T *m i1 *m v) /\
          (1%:M - P2 *m H2^T *m i2 *m H2) *m P2 = Tx *m ((1%:M - P *m H1^T *m i1 *m H1) *m P) *m Tx^T)
    (inverse (H1 *m (P *m H1^T) + Q))
    (inverse (H2 *m (Tx *m P *m Tx^T *m H2^T) + D i k *m Q *m (D i k)^T)).
Proof.
move=> hH; have u := uD i k; set Di := D i k in u hH *.
have hT : Tx^T *m H2^T = H1^T *m Di^T by rewrite -!trmx_mul hH.
have -> : H2 *m (Tx *m P *m Tx^T *m H2^T) + Di *m Q *m Di^T = Di *m (H1 *m (P *m H1^T) + Q) *m Di^T.
  by rewrite -!mulmxA hT !mulmxA hH mulmxDr mulmxDl !mulmxA.
set B := H1 *m _ + _; rewrite /inverse.
have -> : (Di *m B *m Di^T \in unitmx) = (B \in unitmx) by rewrite !unitmx_mul unitmx_tr u andbT.
have [uB|//] := boolP (B \in unitmx); rewrite /= => P2 -> v.
have uDt : Di^T \in unitmx by rewrite unitmx_tr.
have ei : invmx (Di *m B *m Di^T) = invmx Di^T *m invmx B *m invmx Di.
  have uu : Di *m B *m Di^T \in unitmx by rewrite !unitmx_mul u uB uDt.
  apply: (can_inj (mulKmx uu)); rewrite mulmxV // !mulmxA mulmxK // mulmxK // mulmxV //.
have eK : Tx *m P *m Tx^T *m H2^T *m invmx (Di *m B *m Di^T) = Tx *m (P *m H1^T *m invmx B) *m invmx Di.
  by rewrite ei -(mulmxA _ Tx^T) hT !mulmxA mulmxK.
split; first by rewrite eK !mulmxA mulmxKV.
rewrite eK !mulmxBl !mul1mx !mulmxBr !mulmxBl !mulmxA; congr (_ - _).
by rewrite -(mulmxA _ H2) hH !mulmxA mulmxKV.
Qed.

(** *** EKF *)
Section EKF.
Variables (S1 : NonlinSys R TT n1 m p1) (O1 : SysOps S1) (S2 : NonlinSys R TT n2 m p2) (O2 : SysOps S2).
Variables (M1 : forall k, NonlinMeas R TT n1 k) (MO1 : forall k, MeasOps (M1 k)) (M2 : forall k, NonlinMeas R TT n2 k) (MO2 : forall k, MeasOps (M2 k)).
Variables (J : sm S1 -> sm S2 -> Prop) (JM : nat -> forall k, mm (M1 k) -> mm (M2 k) -> Prop).
Let F1 := ekf_alg O1 MO1.
Let F2 := ekf_alg O2 MO2.

Lemma ekf_image_sim :
  image_sys O1 O2 J (fun o1 o2 _ _ => ns_g o2 = Tx *m ns_g o1 /\ ns_G o2 *m Tx = Tx *m ns_G o1) ->
  image_meas MO1 MO2 JM (fun i k q1 q2 _ => nm_h q2 = D i k *m nm_h q1 /\ nm_H q2 *m Tx = D i k *m nm_H q1) ->
  AlgSim (F1 := F1) (F2 := F2) est_image (fun u1 u2 => u2 = E *m u1) (fun v1 v2 => v1 = v2) (fun r1 r2 => r2 = E *m r1 *m E^T) J JM JM meas_image.
Proof.
move=> hs hm; split => //=.
- by rewrite mulmx0.
- by move=> s1 s2 h; exact: im_Rc hs _ _ h.
- by move=> s1 s2 r1 r2 h ->; exact: im_setRc hs _ _ _ h.
- by move=> s1 s2 h; exact: im_check hs _ _ h.
- by move=> s1 s2 x1 q1 x2 q2 d1 d2 h [-> _] hd; exact: im_isStat hs _ _ _ _ _ h hd.
- by move=> s1 s2 x1 q1 x2 q2 d1 d2 h [-> _] hd; exact: im_proc hs _ _ _ _ _ h hd.
- move=> s1 s2 x1 q1 x2 q2 d1 d2 h [-> ->] hd ck.
  by rewrite (im_make hs _ _ h hd ck).
- move=> s1 s2 x1 q1 x2 q2 u1 u2 dt h [-> ->] ->.
  apply: orel_bind; first exact: (im_upd hs x1 u1 dt h).
  move=> o1 o2 [h1 [h2 h3] h4]; split => //; split => //=.
  rewrite -!(addrA _ _ (sm_V _ *m _ *m _)) -/(noise o1) -/(noise o2) h4 mulmxDr mulmxDl !mulmxA h3; congr (_ + _).
  by rewrite -!mulmxA -!trmx_mul h3 !mulmxA.
- by move=> i k a b z1 z2 Q1 Q2 h [_ ->]; exact: imm_setCov hm _ _ _ _ _ h.
- by move=> i k a b h; exact: imm_check hm _ _ _ _ h.
- by move=> i k a b x1 q1 x2 q2 z1 z2 Q1 Q2 h [-> _] [-> _]; exact: imm_isStat hm _ _ _ _ _ _ h.
- by move=> i k a b x1 q1 x2 q2 z1 z2 Q1 Q2 h [-> _] [-> _]; exact: imm_proc hm _ _ _ _ _ _ h.
- move=> i k a b x1 q1 x2 q2 z1 z2 Q1 Q2 h [-> ->] [-> _] ck.
  by rewrite (imm_make hm _ _ _ h ck).
- move=> i k s1 s2 a b x1 q1 x2 q2 z1 z2 Q1 Q2 dt h ha [-> ->] [-> _].
  apply: orel_bind (_ : orel (fun r1 r2 => JM i r1.1.1 r2.1.1 /\ est_image r1.1.2 r1.2 r2.1.2 r2.2) _ _) _; last first.
    by move=> [[c1 y1] P1] [[c2 y2] P2] [h1 h2]; split.
  apply: orel_bind; first exact: (imm_upd hm x1 dt ha).
  move=> c1 c2 [hc [e1 e2]]; rewrite (imm_cov hm hc).
  apply: orel_bind; first exact: image_correct e2.
  move=> i1 i2 hi; split => //=; rewrite e1 (imm_sub hm _ _ hc).
  have [h1 h2] := hi _ erefl (mm_sub c1 z1 (nm_h c1)).
  by split => /=; rewrite ?h1 ?(im_add hs _ _ h) // h2.
Qed.

(** An EKF on models that are images of each other stays an image of the other EKF through any sequence of
    calls on related data: its state is [Tx *m x], its covariance [Tx *m P *m Tx^T]. *)
Theorem C93_ekf (L1 : Lib (alg_env F1)) (L2 : Lib (alg_env F2)) sy1 sy2 ms1 ms2 (x : 'cV[R]_n1) (P : 'M[R]_n1) (t : TT) ops1 ops2 :
  image_sys O1 O2 J (fun o1 o2 _ _ => ns_g o2 = Tx *m ns_g o1 /\ ns_G o2 *m Tx = Tx *m ns_G o1) ->
  image_meas MO1 MO2 JM (fun i k q1 q2 _ => nm_h q2 = D i k *m nm_h q1 /\ nm_H q2 *m Tx = D i k *m nm_H q1) ->
  same_lib L1 L2 -> J sy1 sy2 -> meas_rel (E1 := alg_env F1) (E2 := alg_env F2) (MD (F1 := F1) (F2 := F2) JM) 0 ms1 ms2 ->
  List.Forall2 (op_rel (E1 := alg_env F1) (E2 := alg_env F2) (XD est_image) ctl_image J (MD (F1 := F1) (F2 := F2) JM) (ZD meas_image)) ops1 ops2 ->
  orel (fun (s1 : St (alg_env F1)) (s2 : St (alg_env F2)) => exists (y : 'cV[R]_n1) (V : 'M[R]_n1), [/\ getState s1 = dv y, getCovariance s1 = dm V, getState s2 = dv (Tx *m y),
                                     getCovariance s2 = dm (Tx *m V *m Tx^T) & getStateTime s1 = getStateTime s2])
    (run L1 ops1 (new_filter (E := alg_env F1) sy1 ms1 (dv x) (dm P) t))
    (run L2 ops2 (new_filter (E := alg_env F2) sy2 ms2 (dv (Tx *m x)) (dm (Tx *m P *m Tx^T)) t)).
Proof.
move=> hs hm hL hJ hms ho.
apply: orel_impl (alg_run_sim (ekf_image_sim hs hm) t hL hJ hms (conj erefl erefl) ho).
by move=> s1 s2 [[y1 [V1 [y2 [V2 [-> -> -> -> [-> ->]]]]]] ->]; exists y1, V1.
Qed.
End EKF.

(** *** KalmanFilter *)
Section KF.
Variables (S1 : LinSys R TT n1 m p1) (O1 : SysOps S1) (S2 : LinSys R TT n2 m p2) (O2 : SysOps S2).
Variables (M1 : forall k, LinMeas R TT n1 k) (MO1 : forall k, MeasOps (M1 k)) (M2 : forall k, LinMeas R TT n2 k) (MO2 : forall k, MeasOps (M2 k)).
Variables (J : sm S1 -> sm S2 -> Prop) (JM : nat -> forall k, mm (M1 k) -> mm (M2 k) -> Prop).
Let F1 := kf_alg O1 MO1.
Let F2 := kf_alg O2 MO2.

Lemma kf_image_sim :
  image_sys O1 O2 J (fun o1 o2 _ _ => ls_A o2 *m Tx = Tx *m ls_A o1 /\ ls_B o2 *m E = Tx *m ls_B o1) ->
  image_meas MO1 MO2 JM (fun i k q1 q2 _ => lm_C q2 *m Tx = D i k *m lm_C q1) ->
  AlgSim (F1 := F1) (F2 := F2) est_image (fun u1 u2 => u2 = E *m u1) (fun v1 v2 => v1 = v2) (fun r1 r2 => r2 = E *m r1 *m E^T) J JM JM meas_image.
Proof.
move=> hs hm; split => //=.
- by rewrite mulmx0.
- by move=> s1 s2 h; exact: im_Rc hs _ _ h.
- by move=> s1 s2 r1 r2 h ->; exact: im_setRc hs _ _ _ h.
- by move=> s1 s2 h; exact: im_check hs _ _ h.
- by move=> s1 s2 x1 q1 x2 q2 d1 d2 h [-> _] hd; exact: im_isStat hs _ _ _ _ _ h hd.
- by move=> s1 s2 x1 q1 x2 q2 d1 d2 h [-> _] hd; exact: im_proc hs _ _ _ _ _ h hd.
- move=> s1 s2 x1 q1 x2 q2 d1 d2 h [-> ->] hd ck.
  by rewrite (im_make hs _ _ h hd ck).
- move=> s1 s2 x1 q1 x2 q2 u1 u2 dt h [-> ->] ->.
  apply: orel_bind; first exact: (im_upd hs x1 u1 dt h).
  move=> o1 o2 [h1 [h2 h3] h4]; split => //; split => /=.
    by rewrite mulmxA h2 mulmxA h3 -!mulmxA (im_add hs _ _ h1).
  rewrite -!(addrA _ _ (sm_V _ *m _ *m _)) -/(noise o1) -/(noise o2) h4 mulmxDr mulmxDl !mulmxA h2; congr (_ + _).
  by rewrite -!mulmxA -!trmx_mul h2 !mulmxA.
- by move=> i k a b z1 z2 Q1 Q2 h [_ ->]; exact: imm_setCov hm _ _ _ _ _ h.
- by move=> i k a b h; exact: imm_check hm _ _ _ _ h.
- by move=> i k a b x1 q1 x2 q2 z1 z2 Q1 Q2 h [-> _] [-> _]; exact: imm_isStat hm _ _ _ _ _ _ h.
- by move=> i k a b x1 q1 x2 q2 z1 z2 Q1 Q2 h [-> _] [-> _]; exact: imm_proc hm _ _ _ _ _ _ h.
- move=> i k a b x1 q1 x2 q2 z1 z2 Q1 Q2 h [-> ->] [-> _] ck.
  by rewrite (imm_make hm _ _ _ h ck).
- move=> i k s1 s2 a b x1 q1 x2 q2 z1 z2 Q1 Q2 dt h ha [-> ->] [-> _].
  apply: orel_bind (_ : orel (fun r1 r2 => JM i r1.1.1 r2.1.1 /\ est_image r1.1.2 r1.2 r2.1.2 r2.2) _ _) _; last first.
    by move=> [[c1 y1] P1] [[c2 y2] P2] [h1 h2]; split.
  apply: orel_bind; first exact: (imm_upd hm x1 dt ha).
  move=> c1 c2 [hc e2]; rewrite (imm_cov hm hc).
  apply: orel_bind; first exact: image_correct e2.
  move=> i1 i2 hi; split => //=; have -> : lm_C c2 *m (Tx *m x1) = D i k *m (lm_C c1 *m x1) by rewrite !mulmxA e2.
  rewrite (imm_sub hm _ _ hc).
  have [h1 h2] := hi _ erefl (mm_sub c1 z1 (lm_C c1 *m x1)).
  by split => /=; rewrite ?h1 ?(im_add hs _ _ h) // h2.
Qed.

(** A KalmanFilter on models that are images of each other stays an image of the other KalmanFilter through any sequence of
    calls on related data: its state is [Tx *m x], its covariance [Tx *m P *m Tx^T]. *)
Theorem C93_kf (L1 : Lib (alg_env F1)) (L2 : Lib (alg_env F2)) sy1 sy2 ms1 ms2 (x : 'cV[R]_n1) (P : 'M[R]_n1) (t : TT) ops1 ops2 :
  image_sys O1 O2 J (fun o1 o2 _ _ => ls_A o2 *m Tx = Tx *m ls_A o1 /\ ls_B o2 *m E = Tx *m ls_B o1) ->
  image_meas MO1 MO2 JM (fun i k q1 q2 _ => lm_C q2 *m Tx = D i k *m lm_C q1) ->
  same_lib L1 L2 -> J sy1 sy2 -> meas_rel (E1 := alg_env F1) (E2 := alg_env F2) (MD (F1 := F1) (F2 := F2) JM) 0 ms1 ms2 ->
  List.Forall2 (op_rel (E1 := alg_env F1) (E2 := alg_env F2) (XD est_image) ctl_image J (MD (F1 := F1) (F2 := F2) JM) (ZD meas_image)) ops1 ops2 ->
  orel (fun (s1 : St (alg_env F1)) (s2 : St (alg_env F2)) => exists (y : 'cV[R]_n1) (V : 'M[R]_n1), [/\ getState s1 = dv y, getCovariance s1 = dm V, getState s2 = dv (Tx *m y),
                                     getCovariance s2 = dm (Tx *m V *m Tx^T) & getStateTime s1 = getStateTime s2])
    (run L1 ops1 (new_filter (E := alg_env F1) sy1 ms1 (dv x) (dm P) t))
    (run L2 ops2 (new_filter (E := alg_env F2) sy2 ms2 (dv (Tx *m x)) (dm (Tx *m P *m Tx^T)) t)).
Proof.
move=> hs hm hL hJ hms ho.
apply: orel_impl (alg_run_sim (kf_image_sim hs hm) t hL hJ hms (conj erefl erefl) ho).
by move=> s1 s2 [[y1 [V1 [y2 [V2 [-> -> -> -> [-> ->]]]]]] ->]; exists y1, V1.
Qed.
End KF.
End Image.

(** ** C94: states that nothing depends on *)
Section Passive.
Variables (R : realFieldType) (TT : TimeOps) (n d m p1 p2 : nat).
(** the first filter estimates n + d states, the second only the first n of them *)
Definition head_est (x1 : 'cV[R]_(n + d)) (P1 : 'M[R]_(n + d)) (x2 : 'cV[R]_n) (P2 : 'M[R]_n) : Prop :=
  x2 = usubmx x1 /\ P2 = ulsubmx P1.

Variables (S1 : NonlinSys R TT (n + d) m p1) (O1 : SysOps S1) (S2 : NonlinSys R TT n m p2) (O2 : SysOps S2).
Variables (M1 : forall k, NonlinMeas R TT (n + d) k) (MO1 : forall k, MeasOps (M1 k)) (M2 : forall k, NonlinMeas R TT n k) (MO2 : forall k, MeasOps (M2 k)).
Variables (J : sm S1 -> sm S2 -> Prop) (JM : forall k, mm (M1 k) -> mm (M2 k) -> Prop).

(** the last d states influence neither the first n states (the right upper block of the Jacobian is
    zero and the prediction of the first n is that of the second model), nor the measurements; without
    stationary handling *)
Record passive : Prop := {
  ps_Rc : forall o1 o2, J o1 o2 -> sm_Rc o2 = sm_Rc o1;
  ps_add : forall o1 o2 a b, J o1 o2 -> usubmx (sm_add o1 a b) = sm_add o2 (usubmx a) (usubmx b);
  ps_setRc : forall o1 o2 Rc, J o1 o2 -> J (so_setRc O1 o1 Rc) (so_setRc O2 o2 Rc);
  ps_upd : forall o1 o2 x u dt, J o1 o2 ->
    orel (fun o1' o2' => [/\ J o1' o2', ns_g o2' = usubmx (ns_g o1'), ns_G o2' = ulsubmx (ns_G o1'), ursubmx (ns_G o1') = 0
                           & noise o2' = ulsubmx (noise o1')])
         (sm_upd o1 x u dt) (sm_upd o2 (usubmx x) u dt);
  ps_check : (forall o, so_check O1 o = false) /\ (forall o, so_check O2 o = false);
  psm_sub : forall k (q1 : mm (M1 k)) (q2 : mm (M2 k)) a b, JM q1 q2 -> mm_sub q2 a b = mm_sub q1 a b;
  psm_cov : forall k (q1 : mm (M1 k)) (q2 : mm (M2 k)), JM q1 q2 -> mm_cov q2 = mm_cov q1;
  psm_setCov : forall k (q1 : mm (M1 k)) (q2 : mm (M2 k)) Q, JM q1 q2 -> JM (mo_setCov (MO1 k) q1 Q) (mo_setCov (MO2 k) q2 Q);
  psm_upd : forall k (q1 : mm (M1 k)) (q2 : mm (M2 k)) x dt, JM q1 q2 ->
    orel (fun a b => [/\ JM a b, nm_h b = nm_h a & nm_H a = row_mx (nm_H b) 0]) (mm_upd q1 x dt) (mm_upd q2 (usubmx x) dt);
  psm_check : forall k, (forall q, mo_check (MO1 k) q = false) /\ (forall q, mo_check (MO2 k) q = false)
}.

Let F1 := ekf_alg O1 MO1.
Let F2 := ekf_alg O2 MO2.
Let Tx : 'M[R]_(n, n + d) := row_mx 1%:M 0.

Lemma Tx_vec k (x : 'M[R]_(n + d, k)) : Tx *m x = usubmx x.
Proof. by rewrite -[in LHS](vsubmxK x) mul_row_col mul1mx mul0mx addr0. Qed.
Lemma Tx_mat (P : 'M[R]_(n + d)) : Tx *m P *m Tx^T = ulsubmx P.
Proof. by rewrite Tx_vec -[usubmx P in LHS]hsubmxK tr_row_mx trmx1 trmx0 mul_row_col mulmx1 mulmx0 addr0. Qed.

(** Adding states that nothing depends on (say, a position that is only integrated) does not change the
    estimate of the others, through any sequence of calls on the same data, whatever the correlations
    in the initial covariance and in the process noise. *)
Theorem C94_ekf_passive_states (L1 : Lib (alg_env F1)) (L2 : Lib (alg_env F2)) sy1 sy2 ms1 ms2 (xa : 'cV[R]_(n + d)) (Pa : 'M[R]_(n + d)) (t : TT) ops1 ops2 :
  passive -> same_lib L1 L2 -> J sy1 sy2 -> meas_rel (E1 := alg_env F1) (E2 := alg_env F2) (MD (F1 := F1) (F2 := F2) (fun _ => JM)) 0 ms1 ms2 ->
  List.Forall2 (op_rel (E1 := alg_env F1) (E2 := alg_env F2) (XD head_est) (fun u1 u2 => u1 = u2) J (MD (F1 := F1) (F2 := F2) (fun _ => JM))
                  (fun _ z1 Q1 z2 Q2 => z1 = z2 /\ Q1 = Q2)) ops1 ops2 ->
  orel (fun (s1 : St (alg_env F1)) (s2 : St (alg_env F2)) => exists (y : 'cV[R]_(n + d)) (V : 'M[R]_(n + d)),
          [/\ getState s1 = dv y, getCovariance s1 = dm V, getState s2 = dv (usubmx y),
              getCovariance s2 = dm (ulsubmx V) & getStateTime s1 = getStateTime s2])
    (run L1 ops1 (new_filter (E := alg_env F1) sy1 ms1 (dv xa) (dm Pa) t))
    (run L2 ops2 (new_filter (E := alg_env F2) sy2 ms2 (dv (usubmx xa)) (dm (ulsubmx Pa)) t)).
Proof.
move=> [h1 h2 h3 h4 [h5 h5'] h6 h7 h8 h9 h10].
pose D (i k : nat) : 'M[R]_k := 1%:M.
have uD i k : D i k \in unitmx by exact: unitmx1.
have hG (o1 : sm S1) (o2 : sm S2) : ns_G o2 = ulsubmx (ns_G o1) -> ursubmx (ns_G o1) = 0 -> ns_G o2 *m Tx = Tx *m ns_G o1.
  by move=> -> e; rewrite mul_mx_row mulmx1 mulmx0 Tx_vec -[usubmx _]hsubmxK; congr row_mx; rewrite -e.
have hH k (q1 : mm (M1 k)) (q2 : mm (M2 k)) : nm_H q1 = row_mx (nm_H q2) 0 -> nm_H q2 *m Tx = D 0%N k *m nm_H q1.
  by move=> ->; rewrite mul1mx mul_mx_row mulmx1 mulmx0.
have hs : image_sys Tx 1%:M O1 O2 J (fun o1 o2 _ _ => ns_g o2 = Tx *m ns_g o1 /\ ns_G o2 *m Tx = Tx *m ns_G o1).
  split.
  - by move=> o1 o2 h; rewrite trmx1 mulmx1 mul1mx; apply: h1.
  - by move=> o1 o2 a b h; rewrite !Tx_vec; apply/esym; apply: h2.
  - by move=> o1 o2 Rc h; rewrite trmx1 mulmx1 mul1mx; apply: h3.
  - move=> o1 o2 x u dt h; rewrite Tx_vec mul1mx; apply: orel_impl (h4 _ _ x u dt h).
    by move=> a b [j1 j2 j3 j4 j5]; split => //; [split; [rewrite Tx_vec|apply: hG]|rewrite Tx_mat].
  - by move=> o1 o2 _; rewrite h5 h5'.
  - by move=> o1 o2 x d1 d2 _ _; rewrite h5.
  - by move=> o1 o2 x d1 d2 _ _; rewrite h5.
  - by move=> o1 o2 x P d1 d2 _ _; rewrite h5.
have hm : image_meas Tx D MO1 MO2 (fun _ => JM) (fun i k q1 q2 _ => nm_h q2 = D i k *m nm_h q1 /\ nm_H q2 *m Tx = D i k *m nm_H q1).
  split.
  - by move=> i k q1 q2 a b h; rewrite !mul1mx; apply: h6.
  - by move=> i k q1 q2 h; rewrite trmx1 mulmx1 mul1mx; apply: h7.
  - by move=> i k q1 q2 Q h; rewrite trmx1 mulmx1 mul1mx; apply: h8.
  - move=> i k q1 q2 x dt h; rewrite Tx_vec; apply: orel_impl (h9 _ _ _ x dt h).
    by move=> a b [j1 j2 j3]; split => //; split; [rewrite mul1mx|apply: hH].
  - by move=> i k q1 q2 _; case: (h10 k) => -> ->.
  - by move=> i k q1 q2 x z _; case: (h10 k) => ->.
  - by move=> i k q1 q2 x z _; case: (h10 k) => ->.
  - by move=> i k q1 q2 x P z _; case: (h10 k) => ->.
move=> hL hJ hms ho.
have ho' : List.Forall2 (op_rel (E1 := alg_env F1) (E2 := alg_env F2) (XD (est_image Tx)) (ctl_image (1%:M : 'M[R]_m)) J (MD (F1 := F1) (F2 := F2) (fun _ => JM)) (ZD (meas_image D))) ops1 ops2.
  elim: ho => [|o1 o2 l1 l2 h _ IH]; constructor => //; apply: (op_rel_mono _ _ _ _ _ _ _ _ _ _ _ _ _ h).
  - move=> y1 V1 y2 V2 [a [b [c [e [-> -> -> -> [-> ->]]]]]].
    exists a, b, (usubmx a), (ulsubmx b); split => //; split; by rewrite ?Tx_mat ?Tx_vec.
  - move=> [k u] _ <-; have [e|ne] := k =P m; last by right.
    by subst k; left; exists u, u; split => //; rewrite mul1mx.
  - move=> i [k z] [k' Q] _ _ [<- <-]; have [e|ne] := k =P k'; last by right.
    by subst k'; left; exists k, z, z, Q, Q; split => //; split; rewrite ?trmx1 ?mulmx1 mul1mx.
have := C93_ekf uD xa Pa t hs hm hL hJ hms ho'; rewrite Tx_mat Tx_vec.
apply: orel_impl => s1 s2 [y [V [-> -> -> -> ->]]]; exists y, V; by rewrite Tx_mat Tx_vec.
Qed.
End Passive.

(** ** Concrete cases *)
Section Witness.
Variables (R : realFieldType).

(** C92: the position/velocity system of Props_KFRun.v; the runs end normally for any values *)
Definition w92_ops (u z : 'cV[R]_1) : list (Op (E := alg_env (kf_alg (@w_ops R) (@w_mops R)))) :=
  [:: OpPredictU (E := alg_env (kf_alg (@w_ops R) (@w_mops R))) (dv u) (zt 1);
      OpCorrect (E := alg_env (kf_alg (@w_ops R) (@w_mops R))) (dv z) (dm (1%:M : 'M[R]_1)) (zt 3) (Some 0%nat)].
Example C92_nonvacuous (x1 x2 : 'cV[R]_2) (u1 u2 z1 z2 : 'cV[R]_1) :
  let J := (fun a b : 'M[R]_1 => a = b) in let JM := (fun k (a b : 'M[R]_k) => a = b) in
  [/\ matrices_free_of_data (@w_ops R) (@w_mops R) J JM, same_lib (@w_lib R) (@w_lib R),
      List.Forall2 (same_but_values (O := @w_ops R) (MO := @w_mops R) J JM) (w92_ops u1 z1) (w92_ops u2 z2)
    & exists s1 s2,
      run (@w_lib R) (w92_ops u1 z1) (new_filter (E := alg_env (kf_alg (@w_ops R) (@w_mops R))) (1%:M : 'M[R]_1) [:: existT (fun k => mm (w_fam R k)) 1%nat (1%:M : 'M[R]_1)] (dv x1) (dm (1%:M : 'M[R]_2)) (zt 0)) = Ok s1 /\
      run (@w_lib R) (w92_ops u2 z2) (new_filter (E := alg_env (kf_alg (@w_ops R) (@w_mops R))) (1%:M : 'M[R]_1) [:: existT (fun k => mm (w_fam R k)) 1%nat (1%:M : 'M[R]_1)] (dv x2) (dm (1%:M : 'M[R]_2)) (zt 0)) = Ok s2].
Proof.
split.
- by split => //= [o1 o2 ->|o1 o2 Rc ->|k q1 q2 ->|k q1 q2 Q ->].
- by split.
- by do 2 constructor => //; constructor.
- have [s1 e1] := C43_nonvacuous_run x1 u1 z1; have [s2 e2] := C43_nonvacuous_run x2 u2 z2.
  by exists s1, s2.
Qed.

(** C93: states in units of 1/2, measurements in units of 1/3: A' = A, B' = 2 B, P' = 2 P, V' = 2 V,
    C' = (3/2) C *)
Definition w93_sys : LinSys R ZTime 2 1 2 :=
  const_sys ZTime (block_mx 1%:M 1%:M 0 1%:M : 'M_(1 + 1)) (2%:R%:M *m (col_mx 0 1%:M : 'M_(1 + 1, 1))) (2%:R%:M *m 1%:M) (2%:R%:M *m (col_mx 0 1%:M : 'M_(1 + 1, 1))) 1%:M [::] [::].
Definition w93_ops : SysOps w93_sys := @const_sys_ops R ZTime 2 1 2 w93_sys (fun _ (Rc : 'M[R]_1) => Rc).
Definition w93_fam (k : nat) : LinMeas R ZTime 2 k := const_meas ZTime ((3%:R / 2%:R) *: \matrix_(i, j) ((i == j :> nat)%:R)) [::].
Definition w93_mops (k : nat) : MeasOps (w93_fam k) := @const_meas_ops R ZTime 2 k (w93_fam k) (fun _ (Q : 'M[R]_k) => Q).
Example C93_nonvacuous :
  let Tx : 'M[R]_2 := 2%:R%:M in let D := (fun (i k : nat) => 3%:R%:M : 'M[R]_k) in
  let J := (fun a b : 'M[R]_1 => b = 1%:M *m a *m 1%:M^T) in let JM := (fun (i k : nat) (a b : 'M[R]_k) => b = D i k *m a *m (D i k)^T) in
  [/\ forall i k, D i k \in unitmx,
      image_sys Tx 1%:M (@w_ops R) w93_ops J (fun o1 o2 _ _ => ls_A (l := w93_sys) o2 *m Tx = Tx *m ls_A (l := w_sys R ZTime) o1 /\ ls_B (l := w93_sys) o2 *m 1%:M = Tx *m ls_B (l := w_sys R ZTime) o1)
    & image_meas Tx D (@w_mops R) w93_mops JM (fun i k q1 q2 _ => lm_C (l := w93_fam k) q2 *m Tx = D i k *m lm_C (l := w_fam R k) q1)].
Proof.
have n2 : (2%:R : R) != 0 by rewrite pnatr_eq0.
move=> Tx D J JM; split.
- by move=> i k; rewrite unitmxE det_scalar unitrX // unitfE pnatr_eq0.
- split => //=.
  + by move=> o1 o2 a b _; rewrite /add_default mulmxDr.
  + move=> o1 o2 x u dt ->; split => //.
      by split; [rewrite mul_mx_scalar mul_scalar_mx|rewrite mulmx1].
    by rewrite /noise /= -/Tx mulmxDr mulmxDl !trmx_mul (trmx1 _ 1) mul1mx !mulmxA !mulmx1.
- split => //=.
  + by move=> i k q1 q2 a b _; rewrite /sub_default mulmxBr.
  + by move=> i k q1 q2 x dt ->; split => //; rewrite mul_mx_scalar mul_scalar_mx scalerA mulrCA divff // mulr1.
Qed.

(** C94: velocity and position; the velocity is measured, the position only integrated.  The objects hold
    the stored covariance and the prediction of the last update. *)
Definition lin_nsys n m p (A : 'M[R]_n) (B : 'M[R]_(n, m)) (W : 'M[R]_(n, p)) (V : 'M[R]_(n, m)) (Rp : 'M[R]_p) : NonlinSys R ZTime n m p :=
  @Build_NonlinSys R ZTime n m p
   {| sm := ('M[R]_m * 'cV[R]_n)%type; sm_upd := fun o x u _ => Ok (o.1, A *m x + B *m u); sm_P := fun _ => W; sm_V := fun _ => V; sm_Rp := fun _ => Rp;
      sm_Rc := fun o => o.1; sm_add := fun _ => @add_default R n; sm_sub := fun _ => @sub_default R n;
      sm_wsum := fun _ => @wsum_default R n; sm_act := fun _ => [::]; sm_actC := fun _ => [::] |} (fun o => o.2) (fun _ => A).
Definition lin_nmeas n k (C : 'M[R]_(k, n)) : NonlinMeas R ZTime n k :=
  @Build_NonlinMeas R ZTime n k
   {| mm := ('M[R]_k * 'cV[R]_k)%type; mm_upd := fun q x _ => Ok (q.1, C *m x); mm_cov := fun q => q.1; mm_sub := fun _ => @sub_default R k;
      mm_wsum := fun _ => @wsum_default R k; mm_act := fun _ => [::] |} (fun q => q.2) (fun _ => C).
Definition w94_big : NonlinSys R ZTime (1 + 1) 1 2 := lin_nsys (block_mx 1%:M 0 1%:M 1%:M) (col_mx 1%:M 0) 1%:M (col_mx 1%:M 0) 1%:M.
Definition w94_small : NonlinSys R ZTime 1 1 1 := lin_nsys 1%:M 1%:M 1%:M 1%:M 1%:M.
Definition w94_bfam k : NonlinMeas R ZTime (1 + 1) k := lin_nmeas (row_mx (const_mx 1) 0).
Definition w94_sfam k : NonlinMeas R ZTime 1 k := lin_nmeas (const_mx 1).
Definition w94_setRc n (o : 'M[R]_1 * 'cV[R]_n) (Rc : 'M[R]_1) : 'M[R]_1 * 'cV[R]_n := (Rc, o.2).
Definition w94_setCov k (q : 'M[R]_k * 'cV[R]_k) (Q : 'M[R]_k) : 'M[R]_k * 'cV[R]_k := (Q, q.2).
Definition w94_bops := @const_sys_ops R ZTime _ _ _ w94_big (@w94_setRc (1 + 1)).
Definition w94_sops := @const_sys_ops R ZTime _ _ _ w94_small (@w94_setRc 1).
Definition w94_bmops k := @const_meas_ops R ZTime _ _ (w94_bfam k) (@w94_setCov k).
Definition w94_smops k := @const_meas_ops R ZTime _ _ (w94_sfam k) (@w94_setCov k).
Example C94_nonvacuous :
  passive w94_bops w94_sops w94_bmops w94_smops (fun a b => a.1 = b.1) (fun k a b => a.1 = b.1).
Proof.
split => //=.
- by move=> o1 o2 a b _; rewrite /add_default linearD.
- move=> o1 o2 x u dt h; split => //=.
  + rewrite linearD /= -[x in RHS]vsubmxK mul_block_col !mul_col_mx !col_mxKu !mul1mx mul0mx addr0 //.
  + by rewrite block_mxKul.
  + by rewrite block_mxKur.
  + have ulD (a b : 'M[R]_(1 + 1)) : ulsubmx (a + b) = ulsubmx a + ulsubmx b by apply/matrixP => i j; rewrite !mxE.
    rewrite /noise /= -h ulD !mul1mx !trmx1 !mulmx1 tr_col_mx.
    rewrite mul_col_mx mul_col_row block_mxKul ?trmx1 !mulmx1 mul1mx; congr (_ + _).
    by rewrite [in RHS]scalar_mx_block block_mxKul.
- move=> k q1 q2 x dt h; split => //=.
  by rewrite -[x in RHS]vsubmxK mul_row_col mul0mx addr0.
Qed.
End Witness.
