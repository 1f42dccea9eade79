(** C108 for UKF and UKFVS on the library's own models. *)
From Coq Require Import Reals List FunctionalExtensionality.
From mathcomp Require Import all_ssreflect all_algebra.
From Verif Require Import Outcome FB_Model FB_Spec FB_Sim ActiveSets Geo SixD KF_Model FB_Alg KF_Filter UKF_Model Props_UKFRun Props_SimRunU
  LinAlg RealField S6_Filter Props_S6UKF Props_S6UKFCorrect Props_Share FB_AlgForget Props_ShareS6.
Set Implicit Arguments.
Unset Strict Implicit.
Unset Printing Implicit Defensive.
Import GRing.Theory Num.Theory Order.TTheory.
Local Open Scope ring_scope.
Delimit Scope R_scope with coqR.

Section Keeps.
Variables (R : rcfType) (TT : TimeOps) (n m p : nat).
Lemma ukfvs_predict_keeps s c (f : 'I_s -> 'I_n) (fc : 'I_c -> 'I_m) (S : NonlinSys R TT n m p) (J : sm S -> Prop) par (o : sm S) x P u dt r :
  J o -> (forall (o o1 : sm S) y, J o -> sm_upd o y u dt = Ok o1 -> J o1) -> ukfvs_predict_with f fc par o x P u dt = Ok r -> J r.1.1.
Proof.
move=> jo hJ; rewrite /ukfvs_predict_with /sys_eval; case e1: (sm_upd o x u dt) => [o1|//] /=.
have j1 := hJ _ _ _ jo e1.
rewrite /wr; case: ifP => // _ /=; case e2: (sigma_loop _ _ _) => [[o2 cc]|//] /=; case: (rd cc) => [pts|//] /= [<-] /=.
move: e2; rewrite /sigma_loop; move: (set_nth _ _ _ _) => c0; move: o1 c0 j1 {e1}.
elim: (enum 'I_s) => [|i l IH] o1 c0 j1 /=; first by move=> [<- _].
case e2: (sm_upd o1 _ u dt) => [o3|//] /=; have j3 := hJ _ _ _ j1 e2.
rewrite /wr; case: ifP => // _ /=; case e4: (sm_upd o3 _ u dt) => [o4|//] /=; case: ifP => // _ /=.
by apply: IH; exact: hJ j3 e4.
Qed.
Lemma ukfvs_correct_keeps k s c (f : 'I_s -> 'I_n) (fm : 'I_c -> 'I_k) (S : NonlinSys R TT n m p) (M : NonlinMeas R TT n k) (J : mm M -> Prop) par (o : sm S) (q : mm M) x P z dt r :
  J q -> (forall (q q1 : mm M) y, J q -> mm_upd q y dt = Ok q1 -> J q1) -> ukfvs_correct_with f fm par o q x P z dt = Ok r -> J r.1.1.
Proof.
move=> jo hJ; rewrite /ukfvs_correct_with /meas_eval; case e1: (mm_upd q x dt) => [q1|//] /=.
have j1 := hJ _ _ _ jo e1.
rewrite /wr; case: ifP => // _ /=; case e2: (sigma_loop _ _ _) => [[q2 cc]|//] /=; case: (rd cc) => [pts|//] /=.
case: (inverse _) => [inv|//] /= [<-] /=.
move: e2; rewrite /sigma_loop; move: (set_nth _ _ _ _) => c0; move: q1 c0 j1 {e1}.
elim: (enum 'I_s) => [|i l IH] q1 c0 j1 /=; first by move=> [<- _].
case e2: (mm_upd q1 _ dt) => [o3|//] /=; have j3 := hJ _ _ _ j1 e2.
rewrite /wr; case: ifP => // _ /=; case e4: (mm_upd o3 _ dt) => [o4|//] /=; case: ifP => // _ /=.
by apply: IH; exact: hJ j3 e4.
Qed.
End Keeps.

Section Six.
Context {TT : TimeOps} (secs : TT -> R).
Local Notation F := (ukf_alg (R := R_rcfType) (six_d_ops secs) (six_d_mops TT)).
Local Notation F' := (ukfvs_alg (R := R_rcfType) (six_d_ops secs) (six_d_mops TT)).
(** the objects, and the parameters of the filters *)
Definition u6_like (sy o : fa_sys F) : Prop := s6_like sy.1 o.1 /\ o.2 = sy.2.
Definition ekf_ms (ms : list (DMeas F)) : list (DMeas (ekf_alg (six_d_ops secs) (six_d_mops TT))) := ms.
Definition u6m_like (ms : list (DMeas F)) (i : nat) (q : DMeas F) : Prop := ekf_like (ekf_ms ms) i q.
Definition u6m_same (ms : list (DMeas F)) (i : nat) k (q1 q2 : fa_meas F k) : Prop := ekf_same (ekf_ms ms) i (q1 : fa_meas (ekf_alg (six_d_ops secs) (six_d_mops TT)) k) q2.

Lemma s6_eval_like sy (o1 o2 : fa_sys F) x (u : 'cV[R_rcfType]_0) dt : u6_like sy o1 -> u6_like sy o2 ->
  sys_eval (R := R_rcfType) (S := six_d_sys secs) u dt o1.1 x = sys_eval (R := R_rcfType) (S := six_d_sys secs) u dt o2.1 x.
Proof.
by move=> [h1 _] [h2 _]; rewrite /sys_eval; cbn [sm_upd ns_base six_d_sys six_d_base s6_obj_upd]; rewrite /s6_obj_upd (s6_like_upd (of_vec x) (secs dt) h1 h2).
Qed.
Lemma m6_eval_same ms i k (q1 q2 : fa_meas F k) x dt : u6m_same ms i q1 q2 ->
  meas_eval (R := R_rcfType) (M := six_d_meas TT k) dt q1 x = meas_eval (R := R_rcfType) (M := six_d_meas TT k) dt q2 x.
Proof.
move=> hq; rewrite /meas_eval; cbn [mm_upd nm_base six_d_meas m6_class m6_base six_d_h].
by rewrite (m6_same_upd (fun a => six_d_h k a (of_vec x)) hq).
Qed.
Lemma u6_predict_eq sy (o1 o2 : fa_sys F) x P u dt : u6_like sy o1 -> u6_like sy o2 ->
  ukf_predict (R := R_rcfType) (S := six_d_sys secs) o1.2 o1.1 x P u dt = ukf_predict (R := R_rcfType) (S := six_d_sys secs) o2.2 o2.1 x P u dt.
Proof. by move=> h1 h2; rewrite /ukf_predict (s6_eval_like x u dt h1 h2) h1.2 h2.2. Qed.
Lemma u6vs_predict_eq sy (o1 o2 : fa_sys F) x P u dt : u6_like sy o1 -> u6_like sy o2 ->
  ukfvs_predict (R := R_rcfType) (S := six_d_sys secs) o1.2 o1.1 x P u dt = ukfvs_predict (R := R_rcfType) (S := six_d_sys secs) o2.2 o2.1 x P u dt.
Proof.
move=> h1 h2; have [[_ _ _ s1 _] p1] := h1; have [[_ _ _ s2 _] p2] := h2; rewrite /ukfvs_predict; cbn [sm_act sm_actC ns_base six_d_sys six_d_base].
by rewrite s1 s2 /ukfvs_predict_with (s6_eval_like x u dt h1 h2) p1 p2.
Qed.
Lemma u6_correct_eq sy ms i k (o1 o2 : fa_sys F) (q1 q2 : fa_meas F k) x P z dt : u6_like sy o1 -> u6_like sy o2 -> u6m_same ms i q1 q2 ->
  ukf_correct (R := R_rcfType) (S := six_d_sys secs) (M := six_d_meas TT k) o1.2 o1.1 q1 x P z dt
  = ukf_correct (R := R_rcfType) (S := six_d_sys secs) (M := six_d_meas TT k) o2.2 o2.1 q2 x P z dt.
Proof.
move=> [_ p1] [_ p2] hq; rewrite /ukf_correct (m6_eval_same x dt hq) p1 p2; cbn [sm_add sm_sub ns_base six_d_sys six_d_base]; reflexivity.
Qed.
Lemma u6vs_correct_eq sy ms i k (o1 o2 : fa_sys F) (q1 q2 : fa_meas F k) x P z dt : u6_like sy o1 -> u6_like sy o2 -> u6m_same ms i q1 q2 ->
  ukfvs_correct (R := R_rcfType) (S := six_d_sys secs) (M := six_d_meas TT k) o1.2 o1.1 q1 x P z dt
  = ukfvs_correct (R := R_rcfType) (S := six_d_sys secs) (M := six_d_meas TT k) o2.2 o2.1 q2 x P z dt.
Proof.
move=> [[_ _ _ s1 _] p1] [[_ _ _ s2 _] p2] hq; have [_ _ [_ [_ [eset _]]]] := hq.
rewrite /ukfvs_correct; cbn [sm_act mm_act nm_base six_d_meas m6_class m6_base ns_base six_d_sys six_d_base].
rewrite s1 s2 eset /ukfvs_correct_with (m6_eval_same x dt hq) p1 p2; cbn [sm_add sm_sub ns_base six_d_sys six_d_base]; reflexivity.
Qed.
Lemma u6_upd_like sy (o o1 : S6Obj) y (u : 'cV[R]_0) dt : s6_like sy o -> s6_obj_upd secs o y u dt = Ok o1 -> s6_like sy o1.
Proof. by move=> h [<-]; exact: s6_like_after. Qed.
Lemma u6m_upd_like ms i k (q q1 : fa_meas F k) y dt : u6m_like ms i (dmeas (F := F) q) ->
  mm_upd (m := six_d_meas TT k) q y dt = Ok q1 -> u6m_like ms i (dmeas (F := F) q1).
Proof. by move=> h; cbn [mm_upd nm_base six_d_meas m6_class m6_base]; case=> <-; exact: ekf_like_with. Qed.
Lemma ukf_forget (sy : fa_sys F) (ms : list (DMeas F)) : AlgForget (F := F) (u6_like sy) (u6m_like ms) (u6m_same ms) 0.
Proof.
have H := ekf_forget (secs := secs) sy.1 (ekf_ms ms); case: H => f1 f2 f3 f4 f5 f6 _ f8 f9 f10 f11 f12 f13 f14 _; split.
- by move=> o [h _]; exact: f1 h.
- by move=> o [h e]; split; [exact: (s6_like_setRc (0 : 'M[R]_0) h)|exact: e].
- by move=> o1 o2 [h1 _] [h2 _]; exact: (f3 _ _ h1 h2).
- by move=> o1 o2 x d [h1 _] [h2 _]; exact: (f4 _ _ x d h1 h2).
- by [].
- by move=> o1 o2 x P [h1 _] [h2 _]; exact: (f6 _ _ x P h1 h2).
- move=> o1 o2 x P u dt h1 h2; cbn [fa_predict ukf_alg]; rewrite (u6_predict_eq x P u dt h1 h2).
  case e: (ukf_predict _ _ _ _ _ _) => [r|//]; cbn [Outcome.obind orel fst snd].
  have hr := ukf_predict_keeps (R := R_rcfType) (S := six_d_sys secs) (J := s6_like sy.1) h2.1 (fun o o1 y => @u6_upd_like sy.1 o o1 y u dt) e.
  by split=> //; split=> //; [exact: h1.2|exact: h2.2].
- exact: f8.
- exact: f9.
- exact: f10.
- exact: f11.
- exact: f12.
- exact: f13.
- exact: f14.
- move=> i k o1 o2 q1 q2 x P z dt h1 h2 hq; have [l1 l2 _] := hq.
  cbn [fa_correct ukf_alg]; rewrite (u6_correct_eq x P z dt h1 h2 hq).
  case e: (ukf_correct _ _ _ _ _ _ _) => [r|//]; cbn [Outcome.obind orel fst snd].
  have hr := ukf_correct_keeps (R := R_rcfType) (S := six_d_sys secs) (M := six_d_meas TT k) (J := fun q : fa_meas F k => u6m_like ms i (dmeas q)) l2 (fun q q1 y => @u6m_upd_like ms i k q q1 y dt) e.
  by split.
Qed.
Lemma ukfvs_forget (sy : fa_sys F') (ms : list (DMeas F')) : AlgForget (F := F') (u6_like sy) (u6m_like ms) (u6m_same ms) 0.
Proof.
have H := ukf_forget sy ms; case: H => f1 f2 f3 f4 f5 f6 _ f8 f9 f10 f11 f12 f13 f14 _; split.
- exact: f1.
- exact: f2.
- exact: f3.
- exact: f4.
- exact: f5.
- exact: f6.
- move=> o1 o2 x P u dt h1 h2; cbn [fa_predict ukfvs_alg]; rewrite (u6vs_predict_eq x P u dt h1 h2).
  case e: (ukfvs_predict _ _ _ _ _ _) => [r|//]; cbn [Outcome.obind orel fst snd].
  have hr := ukfvs_predict_keeps (R := R_rcfType) (S := six_d_sys secs) (J := s6_like sy.1) h2.1 (fun o o1 y => @u6_upd_like sy.1 o o1 y u dt) e.
  by split=> //; split=> //; [exact: h1.2|exact: h2.2].
- exact: f8.
- exact: f9.
- exact: f10.
- exact: f11.
- exact: f12.
- exact: f13.
- exact: f14.
- move=> i k o1 o2 q1 q2 x P z dt h1 h2 hq; have [l1 l2 _] := hq.
  cbn [fa_correct ukfvs_alg]; rewrite (u6vs_correct_eq x P z dt h1 h2 hq).
  case e: (ukfvs_correct _ _ _ _ _ _ _) => [r|//]; cbn [Outcome.obind orel fst snd].
  have hr := ukfvs_correct_keeps (R := R_rcfType) (S := six_d_sys secs) (M := six_d_meas TT k) (J := fun q : fa_meas F k => u6m_like ms i (dmeas q)) l2 (fun q q1 y => @u6m_upd_like ms i k q q1 y dt) e.
  by split.
Qed.

(** ** C108 for UKF and UKFVS on SixDRates, SixDRatesImu and SixDRatesOdom objects, whatever they are when
    the filters are made; both filters have the same sigma point parameters, whatever these are *)
Theorem C108_six_d_ukf_partial (L : Lib (alg_env F)) sy ms a b cs s1 s2 :
  same_lib L L -> (forall l i, List.In i (lib_sort L l) -> List.In i l) ->
  List.Forall no_object_call cs -> calls L cs (made sy ms a, made sy ms b) = Ok (s1, s2) ->
  exists s1' s2', alone L sy ms (fst (told cs a b)) = Ok s1' /\ alone L sy ms (snd (told cs a b)) = Ok s2'
    /\ same_answers s1 s1' /\ same_answers s2 s2'.
Proof.
move=> hL hs hc hr; refine (C108_forgetful_partial L _ _ _ (alg_forgetful (ukf_forget sy ms)) hL hs _ sy ms a b cs s1 s2 _ _ hc hr).
- by [].
- by split; [exact: s6_like_refl|].
- by move=> k [K q] e; exists (existT _ K q), (mo_z q), (mo_cov q); split=> //; case: q e.
Qed.
Theorem C108_six_d_ukfvs_partial (L : Lib (alg_env F')) sy ms a b cs s1 s2 :
  same_lib L L -> (forall l i, List.In i (lib_sort L l) -> List.In i l) ->
  List.Forall no_object_call cs -> calls L cs (made sy ms a, made sy ms b) = Ok (s1, s2) ->
  exists s1' s2', alone L sy ms (fst (told cs a b)) = Ok s1' /\ alone L sy ms (snd (told cs a b)) = Ok s2'
    /\ same_answers s1 s1' /\ same_answers s2 s2'.
Proof.
move=> hL hs hc hr; refine (C108_forgetful_partial L _ _ _ (alg_forgetful (ukfvs_forget sy ms)) hL hs _ sy ms a b cs s1 s2 _ _ hc hr).
- by [].
- by split; [exact: s6_like_refl|].
- by move=> k [K q] e; exists (existT _ K q), (mo_z q), (mo_cov q); split=> //; case: q e.
Qed.
End Six.

(** the hypotheses are met: two UKFs with default parameters on one set of objects *)
Section Witness.
Context {TT : TimeOps} (secs : TT -> R).
Local Notation F := (ukf_alg (R := R_rcfType) (six_d_ops secs) (six_d_mops TT)).
Local Notation E := (alg_env F).
Local Notation dvR := (dv (R := R_realFieldType)).
Local Notation dmR := (dm (R := R_realFieldType)).
Variable par0 : UKFPar R_rcfType.
Hypothesis hpar : default_sigma R_rcfType 18 = Ok par0.
Definition alive (s : St E) : Prop :=
  exists (x : 'cV[R]_18) (P : 'M[R]_18) (o : S6Obj) (q1 : M6Obj 6) (q2 : M6Obj 4),
  [/\ f_x (c_cur (core s)) = dvR x /\ f_cov (c_cur (core s)) = dmR P,
      par s = default_params, projT1 (c_pc (core s)) = 0%N,
      c_sys (core s) = (o, par0) /\ so_is o = None
    & c_meas (core s) = [:: dmeas (F := F) (k := 6) q1; dmeas (F := F) (k := 4) q2] /\ mo_is q1 = None].
Lemma alive_control (o : S6Obj) (x : 'cV[R]_18) (P : 'M[R]_18) d (u : 'cV[R]_0) (W : 'M[R]_0) dt : so_is o = None ->
  exists (o' : S6Obj) (x' : 'cV[R]_18) (P' : 'M[R]_18),
    control_update (E := E) ((o, par0) : Sys E) (dvR x) (dmR P) d (dvR u) (dmR W) dt = Ok ((o', par0), dvR x', dmR P') /\ so_is o' = None.
Proof.
move=> es; rewrite /control_update; cbn [alg_env s_check fa_check ukf_alg so_check six_d_ops s_setRc my_predict fst snd].
rewrite es mat_of_dm; cbn [Outcome.obind negb]; rewrite !vec_of_dv mat_of_dm; cbn [Outcome.obind fa_predict ukf_alg fa_setRc fst snd].
set o1 := so_setRc _ _ _; have [[[o' x'] P'] e] := @predict_total TT secs par0 _ _ _ o1 x P u dt hpar.
have k := ukf_predict_keeps (R := R_rcfType) (S := six_d_sys secs) (J := fun a : S6Obj => so_is a = None) (es : so_is o1 = None) _ e.
exists o', x', P'; rewrite e; cbn [Outcome.obind fst snd]; split=> //.
by apply: k => a b y ha; case=> <-.
Qed.
Lemma alive_meas (o : S6Obj) (q : M6Obj 6) (x : 'cV[R]_18) (P : 'M[R]_18) (z : 'cV[R]_6) dt : mo_is q = None ->
  exists (q' : M6Obj 6) (x' : 'cV[R]_18) (P' : 'M[R]_18),
    meas_update (E := E) ((o, par0) : Sys E) (dmeas (F := F) (k := 6) q) (dvR x) (dmR P) (dvR z)
       (dmR (1%:M : 'M_6)) dt = Ok ((o, par0), dmeas (F := F) (k := 6) q', dvR x', dmR P')
    /\ mo_is q' = None.
Proof.
move=> es; rewrite /meas_update; cbn [alg_env m_setCov m_check fa_mcheck ukf_alg mo_check six_d_mops m6_ops my_correct projT1 projT2 dmeas].
rewrite mat_of_dm; cbn [Outcome.obind projT1 projT2 dmeas fa_setCov ukf_alg mo_setCov six_d_mops m6_ops mo_is]; rewrite es; cbn [Outcome.obind negb].
rewrite !vec_of_dv mat_of_dm; cbn [Outcome.obind fa_correct ukf_alg fst snd].
set q1 := mkM6Obj _ _ _ _ _ _.
have [q' [x' [P' [e _]]]] := @C113_six_d_partial TT secs _ _ _ par0 o 6 q1 x P z dt hpar default_pos default_beta (pd1 _ 6).
have k := ukf_correct_keeps (R := R_rcfType) (S := six_d_sys secs) (M := six_d_meas TT 6) (J := fun a : M6Obj 6 => mo_is a = None) (erefl : mo_is q1 = None) _ e.
exists q', x', P'; rewrite e; cbn [Outcome.obind fst snd]; split=> //.
by apply: k => a b y ha; case=> <-.
Qed.
Lemma alive_control_input (c : Core E) i (x : 'cV[R]_18) (P : 'M[R]_18) (o : S6Obj) : i_data i = (c_pc c : V E) \/ i_data i = (vempty : V E) -> projT1 (c_pc c) = 0%N ->
  f_x (c_cur c) = dvR x -> f_cov (c_cur c) = dmR P -> c_sys c = (o, par0) -> so_is o = None ->
  exists (o' : S6Obj) (x' : 'cV[R]_18) (P' : 'M[R]_18), applyControlInput c i = Ok (set_est (set_sys c ((o', par0) : Sys E)) (dvR x' : V E) (dmR P' : Mx E))
    /\ so_is o' = None.
Proof.
move=> ed e0 ex ep eo es; rewrite /applyControlInput /choose_control.
have -> : vsize (i_data i) = 0%N by case: ed => ->.
change (vsize (c_pc c)) with (projT1 (c_pc c)); rewrite e0.
have -> : PeanoNat.Nat.ltb 0 0 = false by [].
rewrite ex ep eo; set dt := tsub _ _.
have [o' [x' [P' [-> h]]]] := alive_control x P (i_data i) (0 : 'cV[R]_0) (so_Rc o) dt es.
by exists o', x', P'.
Qed.
Lemma alive_predict L (s : St E) t : alive s -> exists s', step L s (OpPredictT t) = Ok s' /\ alive s'.
Proof.
case=> x [P [o [q1 [q2 [[ex ep] eq e0 [eo es] [em i1]]]]]]; cbn [step]; rewrite /predict_t; case: (tlt _ _); last first.
  by exists s; split=> //; exists x, P, o, q1, q2.
rewrite /applyInput /input_core; cbn [i_ctl]; set j := mkInput _ _ _ _ _.
have [o' [x' [P' [-> h]]]] := alive_control_input (i := j) (or_intror erefl) e0 ex ep eo es.
cbn [Outcome.obind]; rewrite /pruneHistory; cbn [par]; rewrite eq; cbn [negb p_rewind default_params].
eexists; split; first reflexivity.
by exists x', P', o', q1, q2.
Qed.
Lemma alive_correct L (s : St E) (z : 'cV[R]_6) t : alive s ->
  exists s', step L s (OpCorrect (dvR z : V E) (dmR (1%:M : 'M_6) : Mx E) t (Some 0%N)) = Ok s' /\ alive s'.
Proof.
move=> hal; have [x [P [o [q1 [q2 [[ex ep] eq e0 [eo es] [em i1]]]]]]] := hal; cbn [step]; rewrite /correct eq; cbn [negb p_rewind p_past default_params orb].
case: (tle _ _); last by exists s.
rewrite /applyInput /input_core; cbn [i_ctl i_ts]; rewrite /applyMeasurementInput; cbn [i_model i_data i_cov i_ts].
set i := mkInput _ _ _ _ _; set dt := tsub _ _.
have [o' [x' [P' [t' [-> h]]]]] : exists (o' : S6Obj) (x' : 'cV[R]_18) (P' : 'M[R]_18) (t' : TT), advance_if_needed (core s) i dt =
   Ok (mkCore (mkFState (dvR x' : V E) (dmR P' : Mx E) t' (f_prev (c_cur (core s)))) (c_pc (core s)) (c_pcc (core s)) ((o', par0) : Sys E) (c_meas (core s)))
   /\ so_is o' = None.
  rewrite /advance_if_needed; case: (tlt _ _); last first.
    exists o, x, P, (f_ts (c_cur (core s))); split=> //.
    by move: ex ep eo; case: (core s) => -[] ? ? ? ? ? ? ? ? /= -> -> ->.
  set j := mkInput _ _ _ _ _.
  have [o' [x' [P' [-> h]]]] := alive_control_input (i := j) (or_introl erefl) e0 ex ep eo es.
  by cbn [Outcome.obind]; eexists o', x', P', _; split; first reflexivity.
cbn [Outcome.obind c_meas]; rewrite em; cbn [nth_error c_sys c_cur f_x f_cov].
have [q' [x'' [P'' [-> iq]]]] := alive_meas o' x' P' z dt i1.
cbn [Outcome.obind]; rewrite /pruneHistory; cbn [par]; rewrite eq; cbn [negb p_rewind default_params].
eexists; split; first reflexivity.
by exists x'', P'', o', q', q2.
Qed.
Definition example_mu : list (DMeas F) := [:: dmeas (F := F) (k := 6) (imu_obj (imu_new true)); dmeas (F := F) (k := 4) (odom_obj (odom_new true))].
Definition example_u (z z' : 'cV[R]_6) (t1 t2 t3 : TT) : list (Call E) :=
  [:: First (OpPredictT t1); Second (OpCorrect (E := E) (dvR z) (dmR (1%:M : 'M_6)) t2 (Some 0%N));
      First (OpCorrect (E := E) (dvR z') (dmR (1%:M : 'M_6)) t2 (Some 0%N)); Second (OpPredictT t3); Copy; Second (OpPredictT t3)].
Lemma alive_sees (a b : St E) : alive a -> alive b -> alive (sees a b).
Proof.
case=> x [P [o [q1 [q2 [[ex ep] eq e0 [eo es] [em i1]]]]]] [x' [P' [o' [q1' [q2' [[ex' ep'] eq' e0' _ _]]]]]].
by exists x', P', o, q1, q2.
Qed.
Example C108_six_d_ukf_nonvacuous (L : Lib E) (x y : 'cV[R]_18) (P P2 : 'M[R]_18) z z' t0 t1 t2 t3 :
  List.Forall no_object_call (example_u z z' t1 t2 t3) /\
  exists s1 s2, calls L (example_u z z' t1 t2 t3)
    (made ((s6_obj_new true true, par0) : Sys E) (example_mu : list (Meas E)) (dvR x, dmR P, t0),
     made ((s6_obj_new true true, par0) : Sys E) (example_mu : list (Meas E)) (dvR y, dmR P2, t0)) = Ok (s1, s2).
Proof.
split; first by repeat constructor.
set sa := made _ _ _; set sb := made _ _ _.
have ha : alive sa by exists x, P, (s6_obj_new true true), (imu_obj (imu_new true)), (odom_obj (odom_new true)).
have hb : alive sb by exists y, P2, (s6_obj_new true true), (imu_obj (imu_new true)), (odom_obj (odom_new true)).
move: sa sb ha hb => sa sb ha hb; rewrite /calls /example_u; cbn [ofold call fst snd].
have [a1 [-> ha1]] := alive_predict L t1 ha; cbn [Outcome.obind fst snd].
have [b1 [-> hb1]] := alive_correct L z t2 (alive_sees ha1 hb); cbn [Outcome.obind fst snd].
have [a2 [-> ha2]] := alive_correct L z' t2 (alive_sees hb1 ha1); cbn [Outcome.obind fst snd].
have [b2 [-> hb2]] := alive_predict L t3 (alive_sees ha2 hb1); cbn [Outcome.obind fst snd].
have [b3 [-> hb3]] := alive_predict L t3 (alive_sees hb2 ha2); cbn [Outcome.obind fst snd].
by eexists _, _.
Qed.
End Witness.
