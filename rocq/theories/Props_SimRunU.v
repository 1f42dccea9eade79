(** C45 for whole runs of the UKFVS; C50 for whole runs: on affine models the UKF gives what the EKF gives. *)
From mathcomp Require Import all_ssreflect all_algebra.
From Coq Require Import ZArith.
From Verif Require Import Outcome FB_Model FB_Time FB_Trace FB_Sim McRing LinAlg KF_Algebra KF_Model FB_Alg FB_AlgSim KF_Filter Props_KF Props_KFRun
  VS_Lemmas Props_VS UKF_Model UKF_Chol UKF_Lemmas UKF_Algebra Props_UKF Props_UKFRun Props_VSU Props_Sim Props_SimRun.
Set Implicit Arguments.
Unset Strict Implicit.
Unset Printing Implicit Defensive.
Import GRing.Theory Num.Theory Order.TTheory.
Local Open Scope ring_scope.

(** ** C45: UKFVS *)
Section C45u.
Variables (R : rcfType) (TT : TimeOps) (n m p : nat).
Lemma ukf_predict_keeps (S : NonlinSys R TT n m p) (J : sm S -> Prop) par (o : sm S) x P u dt r :
  J o -> (forall (o o1 : sm S) y, J o -> sm_upd o y u dt = Ok o1 -> J o1) -> ukf_predict par o x P u dt = Ok r -> J r.1.1.
Proof.
move=> jo hJ; rewrite /ukf_predict /sys_eval; case e1: (sm_upd o x u dt) => [o1|//] /=.
have j1 := hJ _ _ _ jo e1.
rewrite /wr; case: ifP => // _ /=; case e2: (sigma_loop _ _ _) => [[o2 c]|//] /=; case: (rd c) => [pts|//] /= [<-] /=.
move: e2; rewrite /sigma_loop; move: (set_nth _ _ _ _) => c0; move: o1 c0 j1 {e1}.
elim: (enum 'I_n) => [|i l IH] o1 c0 j1 /=; first by move=> [<- _].
case e2: (sm_upd o1 _ u dt) => [o3|//] /=; have j3 := hJ _ _ _ j1 e2.
rewrite /wr; case: ifP => // _ /=; case e4: (sm_upd o3 _ u dt) => [o4|//] /=; case: ifP => // _ /=.
by apply: IH; exact: hJ j3 e4.
Qed.
Lemma ukf_correct_keeps k (S : NonlinSys R TT n m p) (M : NonlinMeas R TT n k) (J : mm M -> Prop) par (o : sm S) (q : mm M) x P z dt r :
  J q -> (forall (q q1 : mm M) y, J q -> mm_upd q y dt = Ok q1 -> J q1) -> ukf_correct par o q x P z dt = Ok r -> J r.1.1.
Proof.
move=> jo hJ; rewrite /ukf_correct /meas_eval; case e1: (mm_upd q x dt) => [q1|//] /=.
have j1 := hJ _ _ _ jo e1.
rewrite /wr; case: ifP => // _ /=; case e2: (sigma_loop _ _ _) => [[q2 c]|//] /=; case: (rd c) => [pts|//] /=.
case: (inverse _) => [inv|//] /= [<-] /=.
move: e2; rewrite /sigma_loop; move: (set_nth _ _ _ _) => c0; move: q1 c0 j1 {e1}.
elim: (enum 'I_n) => [|i l IH] q1 c0 j1 /=; first by move=> [<- _].
case e2: (mm_upd q1 _ dt) => [o3|//] /=; have j3 := hJ _ _ _ j1 e2.
rewrite /wr; case: ifP => // _ /=; case e4: (mm_upd o3 _ dt) => [o4|//] /=; case: ifP => // _ /=.
by apply: IH; exact: hJ j3 e4.
Qed.

(** UKFVS as an instance of FilterBase (ukf_vs.h, ukf_vs.cpp); the parameters as in [ukf_alg] *)
Definition ukfvs_alg (S : NonlinSys R TT n m p) (O : SysOps S) (M : forall k, NonlinMeas R TT n k) (MO : forall k, MeasOps (M k))
  : FilterAlg R TT n m := {|
  fa_sys := (sm S * UKFPar R)%type;
  fa_Rc := fun o => sm_Rc o.1;
  fa_setRc := fun o Rc => (so_setRc O o.1 Rc, o.2);
  fa_check := fun o => so_check O o.1;
  fa_isStat := fun o => so_isStat O o.1;
  fa_proc := fun o x d => (so_proc O o.1 x d, o.2);
  fa_make := fun o => so_make O o.1;
  fa_predict := fun o x P u dt => let* r := ukfvs_predict o.2 o.1 x P u dt in Ok (r.1.1, o.2, r.1.2, r.2);
  fa_meas := fun k => mm (M k);
  fa_setCov := fun k => mo_setCov (MO k);
  fa_mcheck := fun k => mo_check (MO k);
  fa_misStat := fun k => mo_isStat (MO k);
  fa_mproc := fun k => mo_proc (MO k);
  fa_mmake := fun k => mo_make (MO k);
  fa_correct := fun k o q x P z dt => let* r := ukfvs_correct o.2 o.1 q x P z dt in Ok (o, r.1.1, r.1.2, r.2)
|}.

Variables (S : NonlinSys R TT n m p) (O : SysOps S) (M : forall k, NonlinMeas R TT n k) (MO : forall k, MeasOps (M k)).
Let UKF := ukf_alg O MO.
Let VS := ukfvs_alg O MO.
Theorem C45_ukfvs_run (L : Lib (alg_env UKF)) (L' : Lib (alg_env VS)) (sy : sm S) par (ms : list (DMeas UKF)) (x : 'cV[R]_n) (P : 'M[R]_n) (t : TT) ops :
  sys_stays_active O -> (forall k, meas_stays_active (MO k)) ->
  act_sys sy -> List.Forall (fun q : DMeas UKF => act_meas (projT2 q)) ms -> same_lib L L' ->
  List.Forall (keeps (F := UKF) (fun o => act_sys o.1) (fun k => @act_meas R TT n k (M k))) ops ->
  orel (@same_estimate R TT n m UKF VS) (run L ops (new_filter (E := alg_env UKF) (sy, par) ms (dv x) (dm P) t))
    (run L' (map (recall (F := UKF) (@fa_predict _ _ _ _ VS) (@fa_correct _ _ _ _ VS)) ops) (new_filter (E := alg_env VS) (sy, par) ms (dv x) (dm P) t)).
Proof.
move=> [u1 u2 u3] hm hs hq hL ho.
apply: (@agree_run R TT n m UKF (@fa_predict _ _ _ _ VS) (@fa_correct _ _ _ _ VS) (fun o => act_sys o.1) (fun k => @act_meas R TT n k (M k))) => //.
split => //=.
- by move=> [o pa] Rc; exact: u2.
- by move=> [o pa] x0 d; exact: u3.
- move=> [o pa] x0 P0 u dt /= [a b]; rewrite C45_ukfvs_predict //; split => //.
  move=> r e; case: (obind_ok _ _ _ e) => [[[o1 y] V] [e1 [<-]]] /=.
  by apply: (ukf_predict_keeps (J := @act_sys R TT n m p S) (conj a b) _ e1) => o2 o3 y2 h; exact: u1.
- by move=> k; case: (hm k).
- by move=> k; case: (hm k).
- move=> k [o pa] q x0 P0 z dt /= [a a'] b; have [h1 _ _] := hm k.
  rewrite C45_ukfvs_correct //; split => // r e; case: (obind_ok _ _ _ e) => [[[q1 y] V] [e1 [<-]]] /=; split => //.
  by apply: (ukf_correct_keeps (J := @act_meas R TT n k (M k)) b _ e1) => q2 q3 y2 h; exact: h1.
Qed.
End C45u.

(** ** C50: affine models *)
Lemma pd_congr (R : realFieldType) n (A P : 'M[R]_n) : A \in unitmx -> pd P -> pd (A *m P *m A^T).
Proof.
move=> uA [sP pP]; split; first exact: sym_congr.
move=> v v0; rewrite qf_congr; apply: pP; apply: contraNneq v0 => e.
by rewrite -(mulKmx (_ : A^T \in unitmx) v) ?unitmx_tr // e mulmx0.
Qed.
Lemma post_pd (R : realFieldType) n k (C : 'M[R]_(k, n)) (P : 'M[R]_n) (Q : 'M[R]_k) : pd P -> pd Q -> pd ((1%:M - gain P C Q *m C) *m P).
Proof.
move=> pP pQ; have u := pd_unit (innov_pd C (pd_psd pP) pQ).
have [sP hP] := pP; have [sQ hQ] := pQ.
split; first by case: (post_psd (pd_psd pP) (pd_psd pQ) u).
move=> v v0; rewrite post_joseph // /joseph qfD !qf_congr.
have [e|ne] := eqVneq ((gain P C Q)^T *m v) 0.
  rewrite e linearB /= trmx1 trmx_mul mulmxBl mul1mx -mulmxA e mulmx0 subr0.
  by apply: ltr_paddr; [case: (pd_psd pQ)|apply: hP].
by apply: ltr_paddl; [case: (pd_psd pP)|apply: hQ].
Qed.
Section C50run.
Variables (R : rcfType) (TT : TimeOps) (n m p : nat).
Variables (S : NonlinSys R TT n m p) (O : SysOps S) (M : forall k, NonlinMeas R TT n k) (MO : forall k, MeasOps (M k)).

(** the affine maps the objects stand for: [A o dt], [b o u dt] and the noise [W o Rc dt] of the system model,
    [C q dt] and [d q dt] of the measurement models *)
Variables (A : sm S -> TT -> 'M[R]_n) (b : sm S -> 'cV[R]_m -> TT -> 'cV[R]_n) (W : sm S -> 'M[R]_m -> TT -> 'M[R]_n).
Variables (C : forall k, mm (M k) -> TT -> 'M[R]_(k, n)) (d : forall k, mm (M k) -> TT -> 'cV[R]_k).

(** objects that stand for the same affine model *)
Definition twin_sys (o1 o2 : sm S) : Prop :=
  [/\ sm_Rc o1 = sm_Rc o2, psd (sm_Rc o1), (forall dt, A o1 dt = A o2 dt), (forall u dt, b o1 u dt = b o2 u dt) & (forall Rc dt, W o1 Rc dt = W o2 Rc dt)].
Definition twin_meas k (q1 q2 : mm (M k)) : Prop :=
  (forall dt, C q1 dt = C q2 dt) /\ (forall dt, d q1 dt = d q2 dt).
(** update() always gives the affine map and its derivative, whatever point it is called at, and what the
    object stands for stays the same; the stationary functions look at nothing else *)
Record affine_sys : Prop := {
  af_upd : forall (o : sm S) x u dt, exists o', [/\ sm_upd o x u dt = Ok o', ns_g o' = A o dt *m x + b o u dt, ns_G o' = A o dt,
     sm_P o' *m sm_Rp o' *m (sm_P o')^T + sm_V o' *m sm_Rc o' *m (sm_V o')^T = W o (sm_Rc o) dt & psd (sm_Rc o) -> twin_sys o o'];
  af_pd : forall (o : sm S) Rc dt, psd Rc -> pd (W o Rc dt) \/ (psd (W o Rc dt) /\ A o dt \in unitmx);
  af_setRc : forall (o1 o2 : sm S) Rc, twin_sys o1 o2 -> psd Rc -> twin_sys (so_setRc O o1 Rc) (so_setRc O o2 Rc);
  af_check : forall o1 o2 : sm S, twin_sys o1 o2 -> so_check O o1 = so_check O o2;
  af_isStat : forall (o1 o2 : sm S) x v, twin_sys o1 o2 -> so_isStat O o1 x v = so_isStat O o2 x v;
  af_proc : forall (o1 o2 : sm S) x v, twin_sys o1 o2 -> twin_sys (so_proc O o1 x v) (so_proc O o2 x v);
  af_make : forall (o1 o2 : sm S) x P, twin_sys o1 o2 -> pd P -> so_make O o1 x P = so_make O o2 x P /\ pd (so_make O o1 x P).2
}.
Record affine_meas : Prop := {
  afm_upd : forall k (q : mm (M k)) x dt, exists q', [/\ mm_upd q x dt = Ok q', nm_h q' = C q dt *m x + d q dt, nm_H q' = C q dt,
     mm_cov q' = mm_cov q & twin_meas q q'];
  afm_setCov : forall k (q1 q2 : mm (M k)) Q, twin_meas q1 q2 -> twin_meas (mo_setCov (MO k) q1 Q) (mo_setCov (MO k) q2 Q) /\ mm_cov (mo_setCov (MO k) q1 Q) = Q;
  afm_check : forall k (q1 q2 : mm (M k)), twin_meas q1 q2 -> mm_cov q1 = mm_cov q2 -> mo_check (MO k) q1 = mo_check (MO k) q2;
  afm_isStat : forall k (q1 q2 : mm (M k)) x z, twin_meas q1 q2 -> mm_cov q1 = mm_cov q2 -> mo_isStat (MO k) q1 x z = mo_isStat (MO k) q2 x z;
  afm_proc : forall k (q1 q2 : mm (M k)) x z, twin_meas q1 q2 -> mm_cov q1 = mm_cov q2 ->
     twin_meas (mo_proc (MO k) q1 x z) (mo_proc (MO k) q2 x z) /\ mm_cov (mo_proc (MO k) q1 x z) = mm_cov (mo_proc (MO k) q2 x z)
     /\ (pd (mm_cov q1) -> pd (mm_cov (mo_proc (MO k) q1 x z)));
  afm_make : forall k (q1 q2 : mm (M k)) x P, twin_meas q1 q2 -> mm_cov q1 = mm_cov q2 -> pd P ->
     mo_make (MO k) q1 x P = mo_make (MO k) q2 x P /\ pd (mo_make (MO k) q1 x P).2
}.
(** parameters with alpha^2 (n + kappa) > 0 *)
Definition pos_par (par : UKFPar R) : Prop :=
  exists alpha kappa beta : R, set_sigma n alpha kappa beta = Ok par /\ 0 < alpha ^+ 2 * (n%:R + kappa).

Let EKF := ekf_alg O MO.
Let UKF := ukf_alg O MO.

(** the call on the UKF that corresponds to one on the EKF; the UKF's user may also change the parameters *)
Inductive same_call : Op (E := alg_env EKF) -> Op (E := alg_env UKF) -> Prop :=
| sc_init x P t : pd P -> same_call (OpInit (E := alg_env EKF) (@dv R n x) (@dm R n P) t) (OpInit (E := alg_env UKF) (@dv R n x) (@dm R n P) t)
| sc_predictT t : same_call (OpPredictT (E := alg_env EKF) t) (OpPredictT (E := alg_env UKF) t)
| sc_predictU u t : same_call (OpPredictU (E := alg_env EKF) u t) (OpPredictU (E := alg_env UKF) u t)
| sc_correct z Q t i : pd (projT2 Q) -> same_call (OpCorrect (E := alg_env EKF) z Q t i) (OpCorrect (E := alg_env UKF) z Q t i)
| sc_enqC u t : same_call (OpEnqC (E := alg_env EKF) u t) (OpEnqC (E := alg_env UKF) u t)
| sc_enqM z Q t i : pd (projT2 Q) -> same_call (OpEnqM (E := alg_env EKF) z Q t i) (OpEnqM (E := alg_env UKF) z Q t i)
| sc_process : same_call (OpProcess (E := alg_env EKF)) (OpProcess (E := alg_env UKF))
| sc_clearC : same_call (OpClearC (E := alg_env EKF)) (OpClearC (E := alg_env UKF))
| sc_clearM : same_call (OpClearM (E := alg_env EKF)) (OpClearM (E := alg_env UKF))
| sc_revert t : same_call (OpRevert (E := alg_env EKF) t) (OpRevert (E := alg_env UKF) t)
| sc_params q : same_call (OpParams (E := alg_env EKF) q) (OpParams (E := alg_env UKF) q)
| sc_sys (f : sm S -> sm S) (g : UKFPar R -> UKFPar R) : (forall o1 o2, twin_sys o1 o2 -> twin_sys (f o1) (f o2)) -> (forall par, pos_par par -> pos_par (g par)) ->
    same_call (OpSys (E := alg_env EKF) f) (OpSys (E := alg_env UKF) (fun o => (f o.1, g o.2)))
| sc_meas (f : list (DMeas EKF) -> list (DMeas EKF)) :
    (forall l1 l2, List.Forall2 (fun a b : DMeas EKF => exists k q1 q2, [/\ a = existT _ k q1, b = existT _ k q2 & twin_meas q1 q2]) l1 l2 ->
                   List.Forall2 (fun a b : DMeas EKF => exists k q1 q2, [/\ a = existT _ k q1, b = existT _ k q2 & twin_meas q1 q2]) (f l1) (f l2)) ->
    same_call (OpMeas (E := alg_env EKF) f) (OpMeas (E := alg_env UKF) f).

Let X (x1 : 'cV[R]_n) (P1 : 'M[R]_n) (x2 : 'cV[R]_n) (P2 : 'M[R]_n) : Prop := [/\ x1 = x2, P1 = P2 & pd P1].
Let Ur (u1 u2 : 'cV[R]_m) : Prop := u1 = u2.
Let UNr (v1 v2 : DV R) : Prop := v1 = v2.
Let Wr (r1 r2 : 'M[R]_m) : Prop := r1 = r2 /\ psd r1.
Let Sr (o1 : sm S) (o2 : sm S * UKFPar R) : Prop := twin_sys o1 o2.1 /\ pos_par o2.2.
Let Mr (i k : nat) (q1 q2 : mm (M k)) : Prop := twin_meas q1 q2.
Let MCr (i k : nat) (q1 q2 : mm (M k)) : Prop := [/\ twin_meas q1 q2, mm_cov q1 = mm_cov q2 & pd (mm_cov q1)].
Let Zr (i k : nat) (z1 : 'cV[R]_k) (Q1 : 'M[R]_k) (z2 : 'cV[R]_k) (Q2 : 'M[R]_k) : Prop := [/\ z1 = z2, Q1 = Q2 & pd Q1].

Lemma UDr_eq v1 v2 : UD Ur UNr v1 v2 <-> v1 = v2.
Proof.
split; first by case=> [[u1 [u2 [-> -> ->]]]|[_ _ ->]].
move=> <-; case: v1 => k u; have [e|ne] := k =P m; last by right.
by subst k; left; exists u, u.
Qed.
Lemma twin_sys_sym o1 o2 : twin_sys o1 o2 -> twin_sys o2 o1.
Proof. by case=> e h a1 a2 a3; split => //; rewrite -e. Qed.
Lemma twin_sys_trans o1 o2 o3 : twin_sys o1 o2 -> twin_sys o2 o3 -> twin_sys o1 o3.
Proof. by move=> [e h a1 a2 a3] [e' h' b1 b2 b3]; split => [|//|dt|u dt|Rc dt]; rewrite ?e // ?a1 ?a2 ?a3. Qed.
Lemma twin_meas_sym k (o1 o2 : mm (M k)) : twin_meas o1 o2 -> twin_meas o2 o1.
Proof. by case=> h1 h2; split => dt; rewrite ?h1 ?h2. Qed.
Lemma twin_meas_trans k (o1 o2 o3 : mm (M k)) : twin_meas o1 o2 -> twin_meas o2 o3 -> twin_meas o1 o3.
Proof. by move=> [a1 a2] [b1 b2]; split => dt; rewrite ?a1 ?a2. Qed.

Hypotheses (dS : default_sys S) (dM : forall k, default_meas (M k)) (hS : affine_sys) (hM : affine_meas).

Lemma ekf_ukf_predict (o1 o2 : sm S) par x P u dt : twin_sys o1 o2 -> pos_par par -> pd P ->
  exists o1' o2' x' P', [/\ ekf_predict o1 x P u dt = Ok (o1', x', P'), ukf_predict par o2 x P u dt = Ok (o2', x', P'), twin_sys o1' o2' & pd P'].
Proof.
move=> tw [al [ka [be [hs hc]]]] pP; have [eR pR eA eb eW] := tw; have pR2 : psd (sm_Rc o2) by rewrite -eR.
have [o1' [e1 g1 G1 n1 t1]] := af_upd hS o1 x u dt; have {}t1 := t1 pR.
have [o2' [e2 g2 G2 n2 t2]] := af_upd hS o2 x u dt; have {}t2 := t2 pR2.
pose J (o : sm S) := twin_sys o2 o.
have jo : J o2 by split.
have hJ (o : sm S) y : J o -> exists o', sm_upd o y u dt = Ok o' /\ J o' /\ ns_g o' = A o2 dt *m y + b o2 u dt /\ ns_G o' = A o2 dt
      /\ sm_P o' *m sm_Rp o' *m (sm_P o')^T + sm_V o' *m sm_Rc o' *m (sm_V o')^T = W o2 (sm_Rc o2) dt.
  move=> jo'; have [h1 h2 h3 h4 h5] := jo'; have [o' [f1 f2 f3 f4 f5]] := af_upd hS o y u dt.
  exists o'; split => //; split; first by apply: twin_sys_trans jo' (f5 _); rewrite -h1.
  by rewrite f2 f3 f4 -h3 -h4 -h5 h1.
have h2 := @C50_predict_ekf R TT n m p S dS _ _ _ _ hs (A o2 dt) (b o2 u dt) _ J o2 x P u dt jo hJ pP hc.
have [|o3 [j3 e3]] := @C50_predict R TT n m p S dS _ _ _ _ hs (A o2 dt) (b o2 u dt) J o2 x P u dt jo _ pP hc.
  by move=> o y j; have [o' [f1 [f2 [f3 _]]]] := hJ o y j; exists o'.
move: h2; rewrite e3 /ekf_predict e1 e2 /= => -[_ h2].
rewrite g1 G1; do 4 eexists; split; first reflexivity.
- rewrite eA eb h2; congr (Ok (_, _, _)).
  by rewrite -!addrA n1 n2 G2 eW eR.
- exact: twin_sys_trans (twin_sys_trans (twin_sys_sym t1) tw) j3.
rewrite -addrA n1.
have [pW|[pW uA]] := af_pd hS o1 dt pR; first by apply: psd_pdD => //; apply: psd_congr; exact: pd_psd.
by rewrite addrC; apply: psd_pdD => //; apply: pd_congr.
Qed.

Lemma affine_sim : AlgSim (F1 := EKF) (F2 := UKF) X Ur UNr Wr Sr Mr MCr Zr.
Proof.
split => //=.
- by move=> s1 [s2 pa] [[e h _ _ _] _].
- by move=> s1 [s2 pa] r1 r2 [t h] [<- p1]; split => //=; exact: af_setRc.
- by move=> s1 [s2 pa] [t _]; exact: (af_check hS).
- by move=> s1 [s2 pa] x1 p1 x2 p2 d1 d2 [t _] [-> _ _] /UDr_eq-> _; exact: (af_isStat hS).
- by move=> s1 [s2 pa] x1 p1 x2 p2 d1 d2 [t h] [-> _ _] /UDr_eq-> _; split => //=; exact: (af_proc hS).
- move=> s1 [s2 pa] x1 p1 x2 p2 d1 d2 [t h] [<- <- pP] /UDr_eq-> _ /=.
  by have [-> h2] := af_make hS x1 (af_proc hS x1 d2 t) pP.
- move=> s1 [s2 pa] x1 p1 x2 p2 u1 u2 dt [t h] [<- <- pP] <-.
  have [o1' [o2' [x' [P' [-> -> t' pP']]]]] := ekf_ukf_predict x1 u1 dt t h pP.
  by split.
- move=> i k a c z1 z2 Q1 Q2 t [_ <- pQ]; have [h1 h2] := afm_setCov hM Q1 t; have [_ h3] := afm_setCov hM Q1 (twin_meas_sym t).
  by split => //; rewrite ?h2 ?h3.
- by move=> i k a c [].
- by move=> i k a c [t e _]; exact: (afm_check hM).
- by move=> i k a c x1 p1 x2 p2 z1 z2 Q1 Q2 [t e _] [-> _ _] [-> _ _] _; exact: (afm_isStat hM).
- move=> i k a c x1 p1 x2 p2 z1 z2 Q1 Q2 [t e h] [-> _ _] [-> _ _] _.
  by have [h1 [h2 h3]] := afm_proc hM x2 z2 t e; split => //; exact: h3.
- move=> i k a c x1 p1 x2 p2 z1 z2 Q1 Q2 [t e h] [<- <- pP] [<- _ _] _ /=.
  have [h1 [h2 h3]] := afm_proc hM x1 z1 t e.
  by have [-> h4] := afm_make hM x1 h1 h2 pP.
- move=> i k s1 [s2 pa] q1 q2 x1 p1 x2 p2 z1 z2 Q1 Q2 dt [t h] [tq e pQ] [<- <- pP] [<- _ _].
  have [al [ka [be [hs hc]]]] := h.
  pose J (q : mm (M k)) := twin_meas q1 q /\ mm_cov q = mm_cov q1.
  have hJ (q : mm (M k)) y : J q -> exists q', mm_upd q y dt = Ok q' /\ J q' /\ mm_cov q' = mm_cov q1 /\ nm_h q' = C q1 dt *m y + d q1 dt /\ nm_H q' = C q1 dt.
    move=> [[c1 c2] c3]; have [q' [f1 f2 f3 f4 f5]] := afm_upd hM q y dt; exists q'.
    by rewrite c1 c2 f4; do !split => //; rewrite ?f4 //; move=> dt'; rewrite ?c1 ?c2; case: f5.
  have hJ' (q : mm (M k)) y : J q -> exists q', mm_upd q y dt = Ok q' /\ J q' /\ mm_cov q' = mm_cov q1 /\ nm_h q' = C q1 dt *m y + d q1 dt.
    by move=> jq; have [q' [f1 [f2 [f3 [f4 f5]]]]] := hJ q y jq; exists q'.
  have j1 : J q1 by split.
  have j2 : J q2 by split.
  have [q1' [e1 [jq1 [c1 [h1 H1]]]]] := hJ q1 x1 j1.
  have u := pd_unit (innov_pd (C q1 dt) (pd_psd pP) pQ).
  have [q2' eu] := C50_correct dS (@dM k) hs s2 x1 z1 j2 hJ' pP pQ hc.
  have [aS _] := dS s1; have [sM _] := @dM k q1'.
  rewrite (ekf_correct_gain _ _ e1) ?H1 ?c1 // h1 aS sM /= /add_default /sub_default.
  have ju : J q2'.
    by apply: (ukf_correct_keeps j2 _ eu) => qa qb y ja ea; have [q' [f1 [f2 _]]] := hJ qa y ja; move: ea; rewrite f1 => -[<-].
  rewrite eu /= /gain; have -> : innov p1 (C q1 dt) (mm_cov q1) = C q1 dt *m p1 *m (C q1 dt)^T + mm_cov q1 by rewrite /innov mulmxA.
  split => //; first by apply: twin_meas_trans (twin_meas_sym _) ju.1; case: jq1.
  have p3 := post_pd (C q1 dt) pP pQ.
  by split => //; move: p3; rewrite /gain /innov mulmxA.
Qed.

(** Through any sequence of calls the UKF's estimates are the EKF's. *)
Theorem C50_run (L : Lib (alg_env EKF)) (L' : Lib (alg_env UKF)) (sy : sm S) par (ms : list (DMeas EKF)) (x : 'cV[R]_n) (P : 'M[R]_n) (t : TT) ops ops' :
  same_lib L L' -> psd (sm_Rc sy) -> pos_par par -> pd P -> List.Forall2 same_call ops ops' ->
  orel (fun (s1 : St (alg_env EKF)) (s2 : St (alg_env UKF)) => @same_estimate R TT n m EKF UKF s1 s2 /\ exists V : 'M[R]_n, getCovariance s1 = dm V /\ pd V)
    (run L ops (new_filter (E := alg_env EKF) sy ms (dv x) (dm P) t))
    (run L' ops' (new_filter (E := alg_env UKF) (sy, par) ms (dv x) (dm P) t)).
Proof.
move=> hL pR hp pP ho.
have meas_twin (l1 l2 : list (DMeas EKF)) j : meas_rel (E1 := alg_env EKF) (E2 := alg_env UKF) (MD (F1 := EKF) (F2 := UKF) Mr) j l1 l2 <->
   List.Forall2 (fun a b : DMeas EKF => exists k q1 q2, [/\ a = existT _ k q1, b = existT _ k q2 & twin_meas q1 q2]) l1 l2.
  split.
    elim: l1 l2 j => [|a l1 IH] [|c l2] j //= [[k [q1 [q2 [e1 e2 h]]]] /IH h2]; constructor => //; by exists k, q1, q2.
  move=> h; elim: h j => // a c l1' l2' [k [q1 [q2 [e1 e2 h]]]] _ IH j; split => //; by exists k, q1, q2.
have hz i z Q : pd (projT2 Q) -> ZD Zr i z Q z Q.
  case: z Q => [k z] [k' Q] /= pQ; have [e|ne] := k =P k'; last by right.
  by subst k'; left; exists k, z, z, Q, Q.
have ho' : List.Forall2 (op_rel (E1 := alg_env EKF) (E2 := alg_env UKF) (XD X) (UD Ur UNr) Sr (MD (F1 := EKF) (F2 := UKF) Mr) (ZD Zr)) ops ops'.
  elim: ho => [|o o' l l' h _ IH]; constructor => //; case: h => //=.
  - by move=> y V t0 pV; split => //; exists y, V, y, V.
  - by move=> u t0; split => //; apply/UDr_eq.
  - by move=> z Q t0 [i|] pQ; do 2 split => //; exact: hz.
  - by move=> u t0; split => //; apply/UDr_eq.
  - by move=> z Q t0 [i|] pQ; do 2 split => //; exact: hz.
  - by move=> f g hf hg s1 [s2 pa] [h1 h2]; split => /=; [exact: hf|exact: hg].
  - by move=> f hf l1 l2 /meas_twin h; apply/meas_twin; exact: hf.
have ht : Sr sy (sy, par) by split.
have hms : meas_rel (E1 := alg_env EKF) (E2 := alg_env UKF) (MD (F1 := EKF) (F2 := UKF) Mr) 0 ms ms.
  by apply/meas_twin; elim: (ms) => [|[k q] l IH]; constructor => //; exists k, q, q.
apply: orel_impl (alg_run_sim affine_sim t hL ht hms (And3 erefl erefl pP) ho').
move=> s1 s2 [[y1 [V1 [y2 [V2 [e1 e2 e3 e4 [e5 e6 pV]]]]]] e7]; split; last by exists V1.
by split; rewrite ?e1 ?e2 ?e3 ?e4 ?e5 ?e6.
Qed.
End C50run.

(** ** Witnesses: position and velocity with an acceleration as control; position and velocity measured *)
Section Witness.
Variable R : rcfType.
Definition wr_A : 'M[R]_2 := \matrix_(i, j) ((leq i j)%:R).
Definition wr_B : 'M[R]_(2, 1) := \matrix_(i, j) ((i == 1%nat :> nat)%:R).
Definition wr_C (k : nat) : 'M[R]_(k, 2) := \matrix_(i, j) ((i == j :> nat)%:R).
Definition wr_sys : NonlinSys R ZTime 2 1 2 := lin_nsys wr_A wr_B 1%:M wr_B 1%:M.
Definition wr_ops : SysOps wr_sys := @const_sys_ops R ZTime 2 1 2 wr_sys (fun o (Rc : 'M[R]_1) => (Rc, o.2)).
Definition wr_fam (k : nat) : NonlinMeas R ZTime 2 k := lin_nmeas (wr_C k).
Definition wr_mops (k : nat) : MeasOps (wr_fam k) := @const_meas_ops R ZTime 2 k (wr_fam k) (fun q (Q : 'M[R]_k) => (Q, q.2)).
Definition wr_lsys : LinSys R ZTime 2 1 2 := @Build_LinSys R ZTime 2 1 2 wr_sys (fun _ => wr_A) (fun _ => wr_B).
Definition wr_lfam (k : nat) : LinMeas R ZTime 2 k := @Build_LinMeas R ZTime 2 k (wr_fam k) (fun _ => wr_C k).

Example C44_run_nonvacuous :
  [/\ forall (o o1 : sm wr_lsys) x u dt, sm_upd o x u dt = Ok o1 -> o1.2 = ls_A (l := wr_lsys) o1 *m x + ls_B (l := wr_lsys) o1 *m u /\ wr_A = ls_A (l := wr_lsys) o1,
      forall o : sm wr_lsys, sm_add o = @add_default R 2
    & forall k (q q1 : mm (wr_lfam k)) x dt, mm_upd q x dt = Ok q1 -> q1.2 = lm_C (l := wr_lfam k) q1 *m x /\ wr_C k = lm_C (l := wr_lfam k) q1].
Proof. by split => // [o o1 x u dt [<-]|k q q1 x dt [<-]]. Qed.
Example C45_run_nonvacuous : sys_stays_active wr_ops /\ forall k, meas_stays_active (wr_mops k).
Proof. by split => [|k]; split => //= *; split; left. Qed.

Definition wr_par : UKFPar R -> Prop := pos_par 2.
(** a control, a queued measurement, a late measurement of the velocity, a prediction, a queue run *)
Definition wr_calls (F : FilterAlg R ZTime 2 1) (u : 'cV[R]_1) (z : 'cV[R]_1) (w : 'cV[R]_2) : list (Op (E := alg_env F)) :=
  [:: OpPredictU (E := alg_env F) (dv u) (zt 1); OpEnqM (E := alg_env F) (dv z) (dm (1%:M : 'M[R]_1)) (zt 2) (Some 0%nat);
      OpCorrect (E := alg_env F) (dv w) (dm (1%:M : 'M[R]_2)) (zt 3) (Some 1%nat);
      OpCorrect (E := alg_env F) (dv w) (dm (1%:M : 'M[R]_2)) (zt 2) (Some 1%nat); OpPredictT (E := alg_env F) (zt 4); OpProcess (E := alg_env F);
      OpRevert (E := alg_env F) (zt 2)].
Example C50_run_nonvacuous (u z : 'cV[R]_1) (w : 'cV[R]_2) :
  let A := (fun (_ : sm wr_sys) (_ : ZTime) => wr_A) in let b := (fun (_ : sm wr_sys) (u : 'cV[R]_1) (_ : ZTime) => wr_B *m u) in
  let W := (fun (_ : sm wr_sys) (Rc : 'M[R]_1) (_ : ZTime) => 1%:M + wr_B *m Rc *m wr_B^T) in
  let C := (fun k (_ : mm (wr_fam k)) (_ : ZTime) => wr_C k) in let d := (fun k (_ : mm (wr_fam k)) (_ : ZTime) => 0 : 'cV[R]_k) in
  [/\ default_sys wr_sys /\ (forall k, default_meas (wr_fam k)), affine_sys wr_ops A b W, affine_meas wr_mops C d,
      exists par : UKFPar R, pos_par 2 par
    & List.Forall2 (same_call (O := wr_ops) (MO := wr_mops) A b W C d) (wr_calls (ekf_alg wr_ops wr_mops) u z w) (wr_calls (ukf_alg wr_ops wr_mops) u z w)].
Proof.
move=> A b W C d.
have pW Rc : psd Rc -> pd (1%:M + wr_B *m Rc *m wr_B^T) by move=> h; rewrite addrC; apply: psd_pdD; [exact: psd_congr|exact: pd1].
split.
- by [].
- split => //=.
  + by move=> o x u0 dt; eexists; split; [reflexivity| | | |] => //=; rewrite mul1mx trmx1 mulmx1.
  + by move=> o Rc dt h; left; exact: pW.
- split => //=.
  + by move=> k q x dt; eexists; split; [reflexivity| | | |] => //=; rewrite addr0.
- have [hc hb] := @default_ok R 2 erefl.
  have [|par [hs _]] := @C49_weights R 2 (1 / 1000%:R) 0 2%:R; first by rewrite lt0r_neq0.
  by exists par; exists (1 / 1000%:R), 0, 2%:R.
- rewrite /wr_calls; apply: List.Forall2_cons; first exact: sc_predictU.
  apply: List.Forall2_cons; first by apply: sc_enqM; exact: pd1.
  apply: List.Forall2_cons; first by apply: sc_correct; exact: pd1.
  apply: List.Forall2_cons; first by apply: sc_correct; exact: pd1.
  apply: List.Forall2_cons; first exact: sc_predictT.
  apply: List.Forall2_cons; first exact: sc_process.
  by apply: List.Forall2_cons; [exact: sc_revert|apply: List.Forall2_nil].
Qed.
End Witness.
