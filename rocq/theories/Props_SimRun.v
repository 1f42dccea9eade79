(** C44, C45, C50 for whole runs: filters whose steps agree give the same estimates through any sequence
    of calls (rewinds, queues, late inputs included). *)
From mathcomp Require Import all_ssreflect all_algebra.
From Coq Require Import ZArith.
From Verif Require Import Outcome FB_Model FB_Time FB_Trace FB_Sim McRing LinAlg KF_Algebra KF_Model FB_Alg FB_AlgSim KF_Filter Props_KF Props_KFRun
  VS_Lemmas Props_VS UKF_Model UKF_Lemmas UKF_Algebra Props_UKF Props_UKFRun Props_VSU Props_Sim.
Set Implicit Arguments.
Unset Strict Implicit.
Unset Printing Implicit Defensive.
Import GRing.Theory Num.Theory Order.TTheory.
Local Open Scope ring_scope.

Section Agree.
Variables (R : realFieldType) (TT : TimeOps) (n m : nat) (F : FilterAlg R TT n m).
(** the filter with the same models but another prediction and correction *)
Definition with_alg (pr : fa_sys F -> 'cV[R]_n -> 'M[R]_n -> 'cV[R]_m -> TT -> outcome (fa_sys F * 'cV[R]_n * 'M[R]_n))
    (co : forall k, fa_sys F -> fa_meas F k -> 'cV[R]_n -> 'M[R]_n -> 'cV[R]_k -> TT -> outcome (fa_sys F * fa_meas F k * 'cV[R]_n * 'M[R]_n))
  : FilterAlg R TT n m :=
  {| fa_sys := fa_sys F; fa_Rc := @fa_Rc _ _ _ _ F; fa_setRc := @fa_setRc _ _ _ _ F; fa_check := @fa_check _ _ _ _ F;
     fa_isStat := @fa_isStat _ _ _ _ F; fa_proc := @fa_proc _ _ _ _ F; fa_make := @fa_make _ _ _ _ F; fa_predict := pr;
     fa_meas := @fa_meas _ _ _ _ F; fa_setCov := @fa_setCov _ _ _ _ F; fa_mcheck := @fa_mcheck _ _ _ _ F; fa_misStat := @fa_misStat _ _ _ _ F;
     fa_mproc := @fa_mproc _ _ _ _ F; fa_mmake := @fa_mmake _ _ _ _ F; fa_correct := co |}.

Variables (pr : fa_sys F -> 'cV[R]_n -> 'M[R]_n -> 'cV[R]_m -> TT -> outcome (fa_sys F * 'cV[R]_n * 'M[R]_n))
    (co : forall k, fa_sys F -> fa_meas F k -> 'cV[R]_n -> 'M[R]_n -> 'cV[R]_k -> TT -> outcome (fa_sys F * fa_meas F k * 'cV[R]_n * 'M[R]_n)).
Let F' := with_alg pr co.
Variables (SI : fa_sys F -> Prop) (MI : forall k, fa_meas F k -> Prop).

Record agree : Prop := {
  ag_setRc : forall sy Rc, SI sy -> SI (fa_setRc sy Rc);
  ag_proc : forall sy x d, SI sy -> SI (fa_proc sy x d);
  ag_predict : forall sy x P u dt, SI sy -> pr sy x P u dt = fa_predict sy x P u dt /\ forall r, fa_predict sy x P u dt = Ok r -> SI r.1.1;
  ag_setCov : forall k (q : fa_meas F k) Q, MI q -> MI (fa_setCov q Q);
  ag_mproc : forall k (q : fa_meas F k) x z, MI q -> MI (fa_mproc q x z);
  ag_correct : forall k sy (q : fa_meas F k) x P z dt, SI sy -> MI q ->
    co sy q x P z dt = fa_correct sy q x P z dt /\ forall r, fa_correct sy q x P z dt = Ok r -> SI r.1.1.1 /\ MI r.1.1.2
}.

(** the same call on the other filter *)
Definition recall (o : Op (E := alg_env F)) : Op (E := alg_env F') :=
  match o with
  | OpInit x P t => OpInit (E := alg_env F') x P t
  | OpPredictT t => OpPredictT (E := alg_env F') t
  | OpPredictU u t => OpPredictU (E := alg_env F') u t
  | OpCorrect z Q t k => OpCorrect (E := alg_env F') z Q t k
  | OpEnqC u t => OpEnqC (E := alg_env F') u t
  | OpEnqM z Q t k => OpEnqM (E := alg_env F') z Q t k
  | OpProcess => OpProcess (E := alg_env F')
  | OpClearC => OpClearC (E := alg_env F')
  | OpClearM => OpClearM (E := alg_env F')
  | OpRevert t => OpRevert (E := alg_env F') t
  | OpParams p => OpParams (E := alg_env F') p
  | OpSys f => OpSys (E := alg_env F') f
  | OpMeas f => OpMeas (E := alg_env F') f
  end.
(** initial estimates have n entries; the user's own changes to the models keep the invariants *)
Definition keeps (o : Op (E := alg_env F)) : Prop :=
  match o with
  | OpInit x P _ => exists (y : 'cV[R]_n) (V : 'M[R]_n), x = dv y /\ P = dm V
  | OpSys f => forall sy, SI sy -> SI (f sy)
  | OpMeas f => forall ms : list (DMeas F), List.Forall (fun q => MI (projT2 q)) ms -> List.Forall (fun q => MI (projT2 q)) (f ms)
  | _ => True
  end.

Hypothesis H : agree.
Let X (x1 : 'cV[R]_n) (P1 : 'M[R]_n) (x2 : 'cV[R]_n) (P2 : 'M[R]_n) := x1 = x2 /\ P1 = P2.
Let Sr (a b : fa_sys F) : Prop := a = b /\ SI a.
Let Mr (i k : nat) (a b : fa_meas F k) : Prop := a = b /\ MI a.

Let Ur (u1 u2 : 'cV[R]_m) : Prop := u1 = u2.
Let Zr (i k : nat) (z1 : 'cV[R]_k) (Q1 : 'M[R]_k) (z2 : 'cV[R]_k) (Q2 : 'M[R]_k) : Prop := z1 = z2 /\ Q1 = Q2.
Lemma UD_eq v1 v2 : UD Ur (fun v1 v2 => v1 = v2) v1 v2 <-> v1 = v2.
Proof.
split; first by case=> [[u1 [u2 [-> -> ->]]]|[_ _ ->]].
move=> <-; case: v1 => k u; have [e|ne] := k =P m; last by right.
by subst k; left; exists u, u.
Qed.

Lemma agree_sim : AlgSim (F1 := F) (F2 := F') X Ur (fun v1 v2 => v1 = v2) (fun r1 r2 => r1 = r2) Sr Mr Mr Zr.
Proof.
split => //=.
- by move=> s1 s2 [-> _].
- by move=> s1 s2 r1 r2 [<- h] <-; split => //; apply: (ag_setRc H).
- by move=> s1 s2 [-> _].
- by move=> s1 s2 x1 p1 x2 p2 d1 d2 [-> _] [-> _] /UD_eq ->.
- by move=> s1 s2 x1 p1 x2 p2 d1 d2 [<- h] [-> _] /UD_eq ->; split => //; apply: (ag_proc H).
- by move=> s1 s2 x1 p1 x2 p2 d1 d2 [<- h] [-> ->] /UD_eq ->.
- move=> s1 s2 x1 p1 x2 p2 u1 u2 dt [<- h] [-> ->] ->; have [-> hi] := ag_predict H x2 p2 u2 dt h.
  by move: hi; case: (fa_predict _ _ _ _ _) => [[[a b] c]|//] hi /=; split => //; split => //; exact: (hi _ erefl).
- by move=> i k a b z1 z2 Q1 Q2 [<- h] [_ ->]; split => //; apply: (ag_setCov H).
- by move=> i k a b [-> _].
- by move=> i k a b x1 p1 x2 p2 z1 z2 Q1 Q2 [-> _] [-> _] [-> _].
- by move=> i k a b x1 p1 x2 p2 z1 z2 Q1 Q2 [<- h] [-> _] [-> _]; split => //; apply: (ag_mproc H).
- by move=> i k a b x1 p1 x2 p2 z1 z2 Q1 Q2 [<- h] [-> ->] [-> _].
- move=> i k s1 s2 a b x1 p1 x2 p2 z1 z2 Q1 Q2 dt [<- hs] [<- h] [-> ->] [-> _]; have [-> hi] := ag_correct H x2 p2 z2 dt hs h.
  by move: hi; case: (fa_correct _ _ _ _ _ _) => [[[[c1 c2] c3] c4]|//] hi /=; have [h1 h2] := hi _ erefl.
Qed.

Lemma meas_refl j (l : list (DMeas F)) : List.Forall (fun q => MI (projT2 q)) l -> meas_rel (E1 := alg_env F) (E2 := alg_env F') (MD (F1 := F) (F2 := F') Mr) j l l.
Proof. by move=> h; elim: h j => // [[k q]] l' hq _ IH j /=; split => //; exists k, q, q. Qed.
Lemma meas_refl_inv j (l1 l2 : list (DMeas F)) : meas_rel (E1 := alg_env F) (E2 := alg_env F') (MD (F1 := F) (F2 := F') Mr) j l1 l2 ->
  l1 = l2 /\ List.Forall (fun q => MI (projT2 q)) l1.
Proof.
elim: l1 l2 j => [|a l1 IH] [|b l2] j //= [[k [q1 [q2 [-> -> [<- h]]]]] /IH[<- hl]]; split => //; by constructor.
Qed.

Lemma agree_run (L : Lib (alg_env F)) (L' : Lib (alg_env F')) sy (ms : list (DMeas F)) (x : 'cV[R]_n) (P : 'M[R]_n) (t : TT) ops :
  same_lib L L' -> SI sy -> List.Forall (fun q => MI (projT2 q)) ms -> List.Forall keeps ops ->
  orel (fun (s1 : St (alg_env F)) (s2 : St (alg_env F')) => [/\ getState s1 = getState s2, getCovariance s1 = getCovariance s2 & getStateTime s1 = getStateTime s2])
    (run L ops (new_filter (E := alg_env F) sy ms (dv x) (dm P) t))
    (run L' (map recall ops) (new_filter (E := alg_env F') sy ms (dv x) (dm P) t)).
Proof.
move=> hL hs hm ho.
have ho' : List.Forall2 (op_rel (E1 := alg_env F) (E2 := alg_env F') (XD X) (UD Ur (fun v1 v2 => v1 = v2)) Sr (MD (F1 := F) (F2 := F') Mr) (ZD Zr)) ops (map recall ops).
  have hz i z Q : ZD Zr i z Q z Q.
    case: z Q => [k z] [k' Q]; have [e|ne] := k =P k'; last by right.
    by subst k'; left; exists k, z, z, Q, Q.
  elim: ho => [|o l h _ IH] /=; constructor => //; case: o h => //=.
  - by move=> y V t0 [y' [V' [-> ->]]]; split => //; exists y', V', y', V'.
  - by move=> u t0 _; split => //; apply/UD_eq.
  - by move=> z Q t0 k _; do 2 split => //; case: k.
  - by move=> u t0 _; split => //; apply/UD_eq.
  - by move=> z Q t0 k _; do 2 split => //; case: k.
  - by move=> f hf s1 s2 [<- h]; split => //; apply: hf.
  - by move=> f hf l1 l2 /meas_refl_inv[<- h]; apply: meas_refl; apply: hf.
apply: orel_impl (alg_run_sim agree_sim t hL (conj erefl hs) (meas_refl 0 hm) (_ : X x P x P) ho') => //.
by move=> s1 s2 [[y1 [P1 [y2 [P2 [-> -> -> -> [-> ->]]]]]] ->].
Qed.
End Agree.

(** both runs end with the same estimate at the same time, or neither has defined behaviour *)
Definition same_estimate (R : realFieldType) (TT : TimeOps) (n m : nat) (F F' : FilterAlg R TT n m) (s1 : St (alg_env F)) (s2 : St (alg_env F')) : Prop :=
  [/\ getState s1 = getState s2, getCovariance s1 = getCovariance s2 & getStateTime s1 = getStateTime s2].

(** ** C44 for whole runs: the EKF on a linear model is the KalmanFilter *)
Section C44run.
Variables (R : realFieldType) (TT : TimeOps) (n m p : nat).
Variables (S : LinSys R TT n m p) (O : SysOps S) (M : forall k, LinMeas R TT n k) (MO : forall k, MeasOps (M k)).
Variables (g : sm S -> 'cV[R]_n) (G : sm S -> 'M[R]_n) (h : forall k, mm (M k) -> 'cV[R]_k) (H : forall k, mm (M k) -> 'M[R]_(k, n)).
Let KF := kf_alg O MO.
Let EKF := ekf_alg (S := Build_NonlinSys g G) O (M := fun k => Build_NonlinMeas (@h k) (@H k)) MO.
Theorem C44_run (L : Lib (alg_env KF)) (L' : Lib (alg_env EKF)) sy (ms : list (DMeas KF)) (x : 'cV[R]_n) (P : 'M[R]_n) (t : TT) ops :
  (forall (o o1 : sm S) x u dt, sm_upd o x u dt = Ok o1 -> g o1 = ls_A o1 *m x + ls_B o1 *m u /\ G o1 = ls_A o1) ->
  (forall o : sm S, sm_add o = @add_default R n) ->
  (forall k (q q1 : mm (M k)) x dt, mm_upd q x dt = Ok q1 -> h q1 = lm_C q1 *m x /\ H q1 = lm_C q1) ->
  same_lib L L' -> List.Forall (keeps (F := KF) (fun _ => True) (fun _ _ => True)) ops ->
  orel (@same_estimate R TT n m KF EKF) (run L ops (new_filter (E := alg_env KF) sy ms (dv x) (dm P) t))
    (run L' (map (recall (F := KF) (@fa_predict _ _ _ _ EKF) (@fa_correct _ _ _ _ EKF)) ops) (new_filter (E := alg_env EKF) sy ms (dv x) (dm P) t)).
Proof.
move=> hg ha hh hL ho.
apply: (@agree_run R TT n m KF (@fa_predict _ _ _ _ EKF) (@fa_correct _ _ _ _ EKF) (fun _ => True) (fun _ _ => True)) => //; last by apply/List.Forall_forall.
split => //=.
- by move=> sy' x' P' u dt _; split => //; exact: C44_predict.
- by move=> k sy' q x' P' z dt _ _; split => //; rewrite (C44_correct _ _ (@hh k)).
Qed.
End C44run.

(** ** C45 for whole runs: with everything active, the variable-state filters are the plain ones *)
Section Active.
Variables (R : realFieldType) (TT : TimeOps) (n m p : nat).
Definition act_sys (S : SysI R TT n m p) (o : sm S) : Prop := all_active (sm_act o) /\ all_active (sm_actC o).
Definition act_meas k (M : MeasI R TT n k) (q : mm M) : Prop := all_active (mm_act q).
(** neither update() nor the functions FilterBase calls make anything inactive *)
Record sys_stays_active (S : SysI R TT n m p) (O : SysOps S) : Prop := {
  ssa_upd : forall (o o1 : sm S) x u dt, act_sys o -> sm_upd o x u dt = Ok o1 -> act_sys o1;
  ssa_setRc : forall (o : sm S) Rc, act_sys o -> act_sys (so_setRc O o Rc);
  ssa_proc : forall (o : sm S) x d, act_sys o -> act_sys (so_proc O o x d)
}.
Record meas_stays_active k (M : MeasI R TT n k) (O : MeasOps M) : Prop := {
  msa_upd : forall (q q1 : mm M) x dt, act_meas q -> mm_upd q x dt = Ok q1 -> act_meas q1;
  msa_setCov : forall (q : mm M) Q, act_meas q -> act_meas (mo_setCov O q Q);
  msa_proc : forall (q : mm M) x z, act_meas q -> act_meas (mo_proc O q x z)
}.

(** KalmanFilterVS as an instance of FilterBase (kalman_filter_vs.h, kalman_filter_vs.cpp) *)
Definition kfvs_alg (S : LinSys R TT n m p) (O : SysOps S) (M : forall k, LinMeas R TT n k) (MO : forall k, MeasOps (M k))
  : FilterAlg R TT n m := {|
  fa_sys := sm S;
  fa_Rc := @sm_Rc _ _ _ _ _ S;
  fa_setRc := so_setRc O;
  fa_check := so_check O;
  fa_isStat := so_isStat O;
  fa_proc := so_proc O;
  fa_make := so_make O;
  fa_predict := fun o x P u dt => kfvs_predict o x P u dt;
  fa_meas := fun k => mm (M k);
  fa_setCov := fun k => mo_setCov (MO k);
  fa_mcheck := fun k => mo_check (MO k);
  fa_misStat := fun k => mo_isStat (MO k);
  fa_mproc := fun k => mo_proc (MO k);
  fa_mmake := fun k => mo_make (MO k);
  fa_correct := fun k o q x P z dt => let* r := kfvs_correct o q x P z dt in Ok (o, r.1.1, r.1.2, r.2)
|}.
End Active.

Section C45run.
Variables (R : realFieldType) (TT : TimeOps) (n m p : nat).
Section KFVS.
Variables (S : LinSys R TT n m p) (O : SysOps S) (M : forall k, LinMeas R TT n k) (MO : forall k, MeasOps (M k)).
Let KF := kf_alg O MO.
Let VS := kfvs_alg O MO.
Theorem C45_kfvs_run (L : Lib (alg_env KF)) (L' : Lib (alg_env VS)) (sy : sm S) (ms : list (DMeas KF)) (x : 'cV[R]_n) (P : 'M[R]_n) (t : TT) ops :
  sys_stays_active O -> (forall k, meas_stays_active (MO k)) ->
  act_sys sy -> List.Forall (fun q : DMeas KF => act_meas (projT2 q)) ms -> same_lib L L' ->
  List.Forall (keeps (F := KF) (@act_sys R TT n m p S) (fun k => @act_meas R TT n k (M k))) ops ->
  orel (@same_estimate R TT n m KF VS) (run L ops (new_filter (E := alg_env KF) sy ms (dv x) (dm P) t))
    (run L' (map (recall (F := KF) (@fa_predict _ _ _ _ VS) (@fa_correct _ _ _ _ VS)) ops) (new_filter (E := alg_env VS) sy ms (dv x) (dm P) t)).
Proof.
move=> [u1 u2 u3] hm hs hq hL ho.
apply: (@agree_run R TT n m KF (@fa_predict _ _ _ _ VS) (@fa_correct _ _ _ _ VS) (@act_sys R TT n m p S) (fun k => @act_meas R TT n k (M k))) => //.
split => //=.
- move=> o x0 P0 u dt a; split; first by apply: C45_kfvs_predict => o1 e; exact: u1 a e.
  by move=> r e; case: (obind_ok _ _ _ e) => o1 [e1 [<-]]; exact: u1 a e1.
- by move=> k; case: (hm k).
- by move=> k; case: (hm k).
- move=> k o q x0 P0 z dt a b; have [h1 _ _] := hm k.
  rewrite C45_kfvs_correct //; [split => //|by case: a|by move=> q1 e; exact: h1 b e].
  move=> r e; case: (obind_ok _ _ _ e) => [[[q1 y] V] [e1 [<-]]]; split => //.
  by case: (obind_ok _ _ _ e1) => q2 [e2 e3]; case: (obind_ok _ _ _ e3) => inv [_ [<- _ _]]; exact: h1 b e2.
Qed.
End KFVS.
Section EKFVS.
Variables (S : NonlinSys R TT n m p) (O : SysOps S) (M : forall k, NonlinMeas R TT n k) (MO : forall k, MeasOps (M k)).
Let EKF := ekf_alg O MO.
Let VS := ekfvs_alg O MO.
Theorem C45_ekfvs_run (L : Lib (alg_env EKF)) (L' : Lib (alg_env VS)) (sy : sm S) (ms : list (DMeas EKF)) (x : 'cV[R]_n) (P : 'M[R]_n) (t : TT) ops :
  sys_stays_active O -> (forall k, meas_stays_active (MO k)) ->
  act_sys sy -> List.Forall (fun q : DMeas EKF => act_meas (projT2 q)) ms -> same_lib L L' ->
  List.Forall (keeps (F := EKF) (@act_sys R TT n m p S) (fun k => @act_meas R TT n k (M k))) ops ->
  orel (@same_estimate R TT n m EKF VS) (run L ops (new_filter (E := alg_env EKF) sy ms (dv x) (dm P) t))
    (run L' (map (recall (F := EKF) (@fa_predict _ _ _ _ VS) (@fa_correct _ _ _ _ VS)) ops) (new_filter (E := alg_env VS) sy ms (dv x) (dm P) t)).
Proof.
move=> [u1 u2 u3] hm hs hq hL ho.
apply: (@agree_run R TT n m EKF (@fa_predict _ _ _ _ VS) (@fa_correct _ _ _ _ VS) (@act_sys R TT n m p S) (fun k => @act_meas R TT n k (M k))) => //.
split => //=.
- move=> o x0 P0 u dt a; split; first by apply: C45_ekfvs_predict => o1 e; exact: u1 a e.
  by move=> r e; case: (obind_ok _ _ _ e) => o1 [e1 [<-]]; exact: u1 a e1.
- by move=> k; case: (hm k).
- by move=> k; case: (hm k).
- move=> k o q x0 P0 z dt a b; have [h1 _ _] := hm k.
  rewrite C45_ekfvs_correct //; [split => //|by case: a|by move=> q1 e; exact: h1 b e].
  move=> r e; case: (obind_ok _ _ _ e) => [[[q1 y] V] [e1 [<-]]]; split => //.
  by case: (obind_ok _ _ _ e1) => q2 [e2 e3]; case: (obind_ok _ _ _ e3) => inv [_ [<- _ _]]; exact: h1 b e2.
Qed.
End EKFVS.
End C45run.
