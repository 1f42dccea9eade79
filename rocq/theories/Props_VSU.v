(** C45 - C48 for UKFVS, and a concrete case for the variable-state theorems. *)
From mathcomp Require Import all_ssreflect all_algebra.
From mathcomp Require Import zify.
From Verif Require Import Outcome McRing LinAlg KF_Algebra KF_Model UKF_Model UKF_Chol UKF_Lemmas VS_Lemmas Props_KF Props_UKF Props_UKFRun Props_VS.
Set Implicit Arguments.
Unset Strict Implicit.
Unset Printing Implicit Defensive.
Import GRing.Theory Num.Theory Order.TTheory.
Local Open Scope ring_scope.

(** ** The loop over the sigma points: equal bodies, and the image of the columns *)
Section Loop.
Variables (C D Obj : Type) (N : nat).
Lemma sigma_loop_ext (hi lo hi' lo' : Obj -> 'I_N -> outcome (Obj * C)) st :
  (forall o i, hi o i = hi' o i) -> (forall o i, lo o i = lo' o i) -> sigma_loop hi lo st = sigma_loop hi' lo' st.
Proof.
move=> eh el; rewrite /sigma_loop; elim: (enum 'I_N) st => [|i l IH] st //=.
rewrite eh; case: (hi' _ _) => [[o1 yh]|//] /=; case: (wr _ _ _) => [c1|//] /=.
by rewrite el; case: (lo' _ _) => [[o2 yl]|//] /=; case: (wr _ _ _) => [c2|//] /=.
Qed.
Variable h : C -> D.
Definition mapr (r : outcome (Obj * C)) : outcome (Obj * D) := let* (o, y) := r in Ok (o, h y).
Lemma wr_map c i y : wr (map (option_map h) c) i (h y) = let* c' := wr c i y in Ok (map (option_map h) c').
Proof.
rewrite /wr size_map; case: ifP => // hi; rewrite /obind; congr Ok.
apply: (@eq_from_nth _ None).
  by rewrite size_map !size_set_nth size_map.
move=> j; rewrite size_set_nth size_map (maxn_idPr hi) => hj.
rewrite [RHS](nth_map None); last by rewrite size_set_nth (maxn_idPr hi).
by rewrite !nth_set_nth /=; case: ifP => // _; rewrite (nth_map None).
Qed.
Lemma rd_map c : rd (map (option_map h) c) = let* ys := rd c in Ok (map h ys).
Proof. by elim: c => [|[y|] c IH] //=; rewrite IH; case: (rd c). Qed.
Lemma sigma_loop_map (hi lo : Obj -> 'I_N -> outcome (Obj * C)) (hi' lo' : Obj -> 'I_N -> outcome (Obj * D)) o c :
  (forall o i, hi' o i = mapr (hi o i)) -> (forall o i, lo' o i = mapr (lo o i)) ->
  sigma_loop hi' lo' (o, map (option_map h) c) = let* (o', c') := sigma_loop hi lo (o, c) in Ok (o', map (option_map h) c').
Proof.
move=> eh el; rewrite /sigma_loop; elim: (enum 'I_N) o c => [|i l IH] o c //=.
rewrite eh /mapr; case: (hi _ _) => [[o1 yh]|//] /=; rewrite wr_map; case: (wr _ _ _) => [c1|//] /=.
by rewrite el /mapr; case: (lo _ _) => [[o2 yl]|//] /=; rewrite wr_map; case: (wr _ _ _) => [c2|//] /=.
Qed.
End Loop.

Section VSU.
Variables (R : rcfType) (T : Type) (n m p k : nat).
Add Field Rfield : (mc_field R).
Implicit Types (x : 'cV[R]_n) (P : 'M[R]_n) (u : 'cV[R]_m) (z : 'cV[R]_k) (dt : T) (par : UKFPar R).

(** ** C45: everything active *)
Lemma ukfvs_predict_id s c (f : 'I_s -> 'I_n) (fc : 'I_c -> 'I_m) (S : NonlinSys R T n m p) par (o : sm S) x P u dt :
  s = n -> c = m -> (forall i, f i = i :> nat) -> (forall i, fc i = i :> nat) ->
  ukfvs_predict_with f fc par o x P u dt = ukf_predict par o x P u dt.
Proof.
move=> e e'; subst s c; move=> hf hc; have hi (i : 'I_p) : id i = i :> nat by [].
rewrite /ukfvs_predict_with /ukf_predict !(get2_id hf hf); case: (sys_eval _ _ _ _) => [[o1 y0]|//] /=.
case: (wr _ _ _) => [c0|//] /=.
rewrite (@sigma_loop_ext _ _ _ _ _ (fun o i => sys_eval u dt o (sm_add o x (col i (llt_L ((n%:R + up_lambda par) *: P)))))
  (fun o i => sys_eval u dt o (sm_sub o x (col i (llt_L ((n%:R + up_lambda par) *: P)))))); last first.
- by move=> o' i; rewrite /zput1 (put1_id hf).
- by move=> o' i; rewrite /zput1 (put1_id hf).
case: (sigma_loop _ _ _) => [[o2 cc]|//] /=; case: (rd _) => [pts|//] /=.
rewrite !(get2_id hf hc) !(get2_id hc hc) !(get2_id hf hi) (put2_id hf hf); congr (Ok (_, _, wcov _ _ _)).
by apply: eq_map => y; rewrite (get1_id hf).
Qed.
Theorem C45_ukfvs_predict (S : NonlinSys R T n m p) par (o : sm S) x P u dt :
  all_active (sm_act o) -> all_active (sm_actC o) ->
  ukfvs_predict par o x P u dt = ukf_predict par o x P u dt.
Proof.
move=> /all_active_eff a /all_active_eff b.
exact: (ukfvs_predict_id par o x P u dt (eff_size a) (eff_size b) (aix_id a) (aix_id b)).
Qed.
Lemma ukfvs_correct_id s c (f : 'I_s -> 'I_n) (fm : 'I_c -> 'I_k) (S : NonlinSys R T n m p) (M : NonlinMeas R T n k) par (o : sm S) (q : mm M) x P z dt :
  s = n -> c = k -> (forall i, f i = i :> nat) -> (forall i, fm i = i :> nat) ->
  ukfvs_correct_with f fm par o q x P z dt = ukf_correct par o q x P z dt.
Proof.
move=> e e'; subst s c; move=> hf hm.
rewrite /ukfvs_correct_with /ukf_correct !(get2_id hf hf); case: (meas_eval _ _ _) => [[q1 y0]|//] /=.
case: (wr _ _ _) => [c0|//] /=.
rewrite (@sigma_loop_ext _ _ _ _ _ (fun q i => meas_eval dt q (sm_add o x (col i (llt_L ((n%:R + up_lambda par) *: P)))))
  (fun q i => meas_eval dt q (sm_sub o x (col i (llt_L ((n%:R + up_lambda par) *: P)))))); last first.
- by move=> o' i; rewrite /zput1 (put1_id hf).
- by move=> o' i; rewrite /zput1 (put1_id hf).
case: (sigma_loop _ _ _) => [[q2 cc]|//] /=; case: (rd _) => [pts|//] /=.
rewrite !(get2_id hm hm) /zput1 (get1_id hm).
have -> : forall v : 'cV[R]_k, [seq (get1 fm (mm_sub q2 y.2 v), get1 fm (mm_sub q2 y.2 v)) | y <- pts] = [seq (mm_sub q2 y.2 v, mm_sub q2 y.2 v) | y <- pts].
  by move=> v; apply: eq_map => y; rewrite (get1_id hm).
have -> : forall v : 'cV[R]_k, [seq (get1 f (sm_sub o y.1 x), get1 fm (mm_sub q2 y.2 v)) | y <- pts] = [seq (sm_sub o y.1 x, mm_sub q2 y.2 v) | y <- pts].
  by move=> v; apply: eq_map => y; rewrite (get1_id hm) (get1_id hf).
by case: (inverse _) => [inv|//] /=; rewrite (put1_id hf) (put2_id hf hf).
Qed.
Theorem C45_ukfvs_correct (S : NonlinSys R T n m p) (M : NonlinMeas R T n k) par (o : sm S) (q : mm M) x P z dt :
  all_active (sm_act o) -> all_active (mm_act q) ->
  ukfvs_correct par o q x P z dt = ukf_correct par o q x P z dt.
Proof.
move=> /all_active_eff a /all_active_eff b.
exact: (ukfvs_correct_id par o q x P z dt (eff_size a) (eff_size b) (aix_id a) (aix_id b)).
Qed.

(** ** C46 *)
Theorem C46_ukfvs_predict_cov_partial (S : NonlinSys R T n m p) par (o o1 : sm S) x P u dt x' P' a b :
  ukfvs_predict par o x P u dt = Ok (o1, x', P') -> inactive (sm_act o) a \/ inactive (sm_act o) b -> P' a b = P a b.
Proof.
rewrite /ukfvs_predict /ukfvs_predict_with; case: (sys_eval _ _ _ _) => [[o2 y0]|//] /=; case: (wr _ _ _) => [c0|//] /=.
case: (sigma_loop _ _ _) => [[o3 cc]|//] /=; case: (rd _) => [pts|//] /= [_ _ <-] h; apply: put2_out; apply/orP.
by case: h => h; [left|right]; apply/forallP => i; apply: inactive_out.
Qed.
Theorem C46_ukfvs_correct_partial (S : NonlinSys R T n m p) (M : NonlinMeas R T n k) par (o : sm S) (q q1 : mm M) x P z dt x' P' a :
  sm_add o = @add_default R n -> ukfvs_correct par o q x P z dt = Ok (q1, x', P') -> inactive (sm_act o) a ->
  x' a 0 = x a 0 /\ (forall b, P' a b = P a b /\ P' b a = P b a).
Proof.
move=> d; rewrite /ukfvs_correct /ukfvs_correct_with; case: (meas_eval _ _ _) => [[o2 y0]|//] /=; case: (wr _ _ _) => [c0|//] /=.
case: (sigma_loop _ _ _) => [[o3 cc]|//] /=; case: (rd _) => [pts|//] /=; case: (inverse _) => [inv|//] /= [_ <- <-] h.
rewrite d /add_default; split.
  by rewrite mxE put1_out ?mxE ?addr0 //; exact: inactive_out.
by move=> b; split; apply: put2_out; apply/orP; [left|right]; apply/forallP => i; apply: inactive_out.
Qed.

(** ** C48: the active block is the UKF of the active subsystem *)
Lemma get1_wsum N s (f : 'I_s -> 'I_N) w (X : seq 'cV[R]_N) : get1 f (wsum_default w X) = wsum_default w (map (get1 f) X).
Proof.
rewrite /wsum_default; have {1}<- : get1 f 0 = 0 :> 'cV[R]_s by apply/colP => i; rewrite !mxE.
by elim: w X 0 => [|w0 w IH] [|y X] a //=; rewrite IH get1D get1Z.
Qed.
Section Sub.
Variables (s c d : nat) (f : 'I_s -> 'I_n) (fc : 'I_c -> 'I_m) (fm : 'I_d -> 'I_k).
Hypothesis (jf : injective f) (jc : injective fc) (jm : injective fm).
Variables (S : NonlinSys R T n m p) (M : NonlinMeas R T n k).
Hypothesis (dS : default_sys S) (dM : default_meas M).

Lemma sub_eval x u dt (o : sm S) (y : 'cV[R]_s) :
  sys_eval (S := sub_nonlin f fc x u S) (get1 fc u) dt o y = mapr (get1 f) (sys_eval u dt o (put1 f y x)).
Proof. by rewrite /sys_eval /mapr /= put_get1 //; case: (sm_upd _ _ _ _). Qed.
Lemma sub_predict par (o : sm S) x P u dt :
  ukf_predict (S := sub_nonlin f fc x u S) par o (get1 f x) (get2 f f P) (get1 fc u) dt
  = let* r := ukfvs_predict_with f fc par o x P u dt in Ok (r.1.1, get1 f r.1.2, get2 f f r.2).
Proof.
rewrite /ukf_predict /ukfvs_predict_with sub_eval put_get1 // /mapr.
case: (sys_eval _ _ _ _) => [[o1 y0]|//] /=.
have {1}-> : nseq (up_num par) (@None 'cV[R]_s) = map (option_map (get1 f)) (nseq (up_num par) None) by rewrite map_nseq.
rewrite wr_map; case: (wr _ _ _) => [c0|//] /=.
rewrite (@sigma_loop_map _ _ _ _ (get1 f) (fun o i => sys_eval u dt o (sm_add o x (zput1 f (col i (llt_L ((s%:R + up_lambda par) *: get2 f f P))))))
  (fun o i => sys_eval u dt o (sm_sub o x (zput1 f (col i (llt_L ((s%:R + up_lambda par) *: get2 f f P))))))); first last.
- by move=> o' i; rewrite sub_eval; have [_ [-> _]] := dS o'; rewrite /sub_default put1_sub.
- by move=> o' i; rewrite sub_eval; have [-> [_ _]] := dS o'; rewrite /add_default put1_add.
case: (sigma_loop _ _ _) => [[o2 cc]|//] /=; rewrite rd_map; case: (rd _) => [pts|//] /=.
rewrite get_put2 //; have [_ [-> ->]] := dS o2; rewrite get1_wsum -map_comp; congr (Ok (_, _, wcov _ _ _)).
by apply: eq_map => y /=; rewrite /sub_default get1B get1_wsum.
Qed.
Let both (v : 'cV[R]_n * 'cV[R]_k) : 'cV[R]_s * 'cV[R]_d := (get1 f v.1, get1 fm v.2).
Lemma sub_meval x dt (q : mm M) (y : 'cV[R]_s) :
  meas_eval (M := sub_nmeas f fm x M) dt q y = mapr both (meas_eval dt q (put1 f y x)).
Proof. by rewrite /meas_eval /mapr /both /=; case: (mm_upd _ _ _) => [q1|//] /=; rewrite get_put1. Qed.
Lemma sub_correct par (o : sm S) (q : mm M) x P u z dt :
  ukf_correct (S := sub_nonlin f fc x u S) (M := sub_nmeas f fm x M) par o q (get1 f x) (get2 f f P) (get1 fm z) dt
  = let* r := ukfvs_correct_with f fm par o q x P z dt in Ok (r.1.1, get1 f r.1.2, get2 f f r.2).
Proof.
rewrite /ukf_correct /ukfvs_correct_with sub_meval put_get1 // /mapr.
case: (meas_eval _ _ _) => [[q1 y0]|//] /=.
have {1}-> : nseq (up_num par) (@None ('cV[R]_s * 'cV[R]_d)) = map (option_map both) (nseq (up_num par) None) by rewrite map_nseq.
rewrite wr_map; case: (wr _ _ _) => [c0|//] /=.
rewrite (@sigma_loop_map _ _ _ _ both (fun q i => meas_eval dt q (sm_add o x (zput1 f (col i (llt_L ((s%:R + up_lambda par) *: get2 f f P))))))
  (fun q i => meas_eval dt q (sm_sub o x (zput1 f (col i (llt_L ((s%:R + up_lambda par) *: get2 f f P))))))); first last.
- by move=> o' i; rewrite sub_meval; have [_ [-> _]] := dS o; rewrite /sub_default put1_sub.
- by move=> o' i; rewrite sub_meval; have [-> [_ _]] := dS o; rewrite /add_default put1_add.
case: (sigma_loop _ _ _) => [[q2 cc]|//] /=; rewrite rd_map; case: (rd _) => [pts|//] /=.
have [-> [-> _]] := dS o; have [-> ->] := dM q2.
have ez : wsum_default (up_wm par) [seq y.2 | y <- [seq both i | i <- pts]] = get1 fm (wsum_default (up_wm par) [seq y.2 | y <- pts]).
  by rewrite get1_wsum -!map_comp.
rewrite ez; set zp := wsum_default _ _.
have -> : [seq (sub_default y.2 (get1 fm zp), sub_default y.2 (get1 fm zp)) | y <- [seq both i | i <- pts]]
   = [seq (get1 fm (sub_default y.2 zp), get1 fm (sub_default y.2 zp)) | y <- pts].
  by rewrite -map_comp; apply: eq_map => y /=; rewrite /sub_default get1B.
have -> : [seq (sub_default y.1 (get1 f x), sub_default y.2 (get1 fm zp)) | y <- [seq both i | i <- pts]]
   = [seq (get1 f (sub_default y.1 x), get1 fm (sub_default y.2 zp)) | y <- pts].
  by rewrite -map_comp; apply: eq_map => y /=; rewrite /sub_default !get1B.
case: (inverse _) => [inv|//] /=; rewrite get_put2 //.
by rewrite /add_default /sub_default get1D get1B get_zput1.
Qed.
Lemma sub_default_sys x u : default_sys (sub_nonlin f fc x u S). Proof. by []. Qed.
Lemma sub_default_meas x : default_meas (sub_nmeas f fm x M). Proof. by []. Qed.
End Sub.

Section Active.
Variables (S : NonlinSys R T n m p) (M : NonlinMeas R T n k).
Hypothesis (dS : default_sys S) (dM : default_meas M).

Theorem C48_ukfvs_predict par (o o1 : sm S) x P u dt x' P' :
  ukfvs_predict par o x P u dt = Ok (o1, x', P') -> uniq (sm_act o) -> uniq (sm_actC o) ->
  let f := @aix _ (sm_act o) in let fc := @aix _ (sm_actC o) in
  ukf_predict (S := sub_nonlin f fc x u S) par o (get1 f x) (get2 f f P) (get1 fc u) dt = Ok (o1, get1 f x', get2 f f P').
Proof. move=> e ua uc f fc; have := sub_predict (aix_inj ua) (aix_inj uc) dS par o x P u dt; rewrite -/(ukfvs_predict par o x P u dt) e; exact. Qed.
Theorem C48_ukfvs_correct par (o : sm S) (q q1 : mm M) x P z dt x' P' :
  ukfvs_correct par o q x P z dt = Ok (q1, x', P') -> uniq (sm_act o) -> uniq (mm_act q) ->
  let f := @aix _ (sm_act o) in let fm := @aix _ (mm_act q) in
  forall c (fc : 'I_c -> 'I_m) u,
  ukf_correct (S := sub_nonlin f fc x u S) (M := sub_nmeas f fm x M) par o q (get1 f x) (get2 f f P) (get1 fm z) dt = Ok (q1, get1 f x', get2 f f P').
Proof. move=> e ua um f fm c fc u; have := sub_correct fc fm (aix_inj ua) dS dM par o q x P u z dt; rewrite -/(ukfvs_correct par o q x P z dt) e; exact. Qed.

(** with parameters set for the active states, the active block stays positive (semi-)definite *)
Variables (alpha kappa beta : R) (par : UKFPar R).
Theorem C48_ukfvs_predict_psd (o o1 : sm S) x P u dt x' P' :
  let f := @aix _ (sm_act o) in let N := size (eff (sm_act o)) in
  set_sigma N alpha kappa beta = Ok par -> 0 < alpha ^+ 2 * (N%:R + kappa) -> alpha ^+ 2 <= beta ->
  ukfvs_predict par o x P u dt = Ok (o1, x', P') -> uniq (sm_act o) -> uniq (sm_actC o) ->
  psd (sm_Rp o1) -> psd (sm_Rc o1) -> psd (get2 f f P').
Proof.
move=> f N hp ha hb e ua uc pp pc; have {}e := C48_ukfvs_predict e ua uc.
exact: (C51_predict (@sub_default_sys _ _ _ _ _ x u) hp ha hb e pp (get2_psd _ pc)).
Qed.
Theorem C48_ukfvs_correct_pd (J : mm M -> Prop) (o : sm S) (q : mm M) x P z dt :
  let f := @aix _ (sm_act o) in let N := size (eff (sm_act o)) in
  set_sigma N alpha kappa beta = Ok par -> 0 < alpha ^+ 2 * (N%:R + kappa) -> alpha ^+ 2 <= beta ->
  uniq (sm_act o) -> uniq (mm_act q) ->
  J q -> (forall (q : mm M) y, J q -> exists q', mm_upd q y dt = Ok q' /\ J q' /\ pd (mm_cov q')) ->
  pd (get2 f f P) ->
  exists q1 x' P', ukfvs_correct par o q x P z dt = Ok (q1, x', P') /\ J q1 /\ pd (get2 f f P') /\ lle (get2 f f P') (get2 f f P).
Proof.
move=> f N hp ha hb ua um j hJ pP; pose fm := @aix _ (mm_act q).
have jf : injective f := aix_inj ua; have jm : injective fm := aix_inj um.
have := sub_correct (@id 'I_m) fm jf dS dM par o q x P 0 z dt; rewrite -/(ukfvs_correct par o q x P z dt).
have [|||q1 [x1 [P1 [-> [j1 [p1 l1]]]]]] := @C51_correct R T _ _ _ _ (sub_nonlin f id x 0 S) (sub_nmeas f fm x M) _ _ alpha kappa beta par hp J o q (get1 f x) (get2 f f P) (get1 fm z) dt j _ pP ha hb.
- by [].
- by [].
- move=> q0 y jq; have [q' [e1 [j' pq]]] := hJ q0 (put1 f y x) jq; exists q'; split => //; split => //.
  exact: get2_pd.
case: (ukfvs_correct par o q x P z dt) => [[[q2 x2] P2]|//] /= [eq _ eP].
by exists q2, x2, P2; rewrite -eP -eq.
Qed.

Theorem C48_ukfvs_predict_defined (J : sm S -> Prop) (o : sm S) x P u dt :
  let N := size (eff (sm_act o)) in set_sigma N alpha kappa beta = Ok par ->
  uniq (sm_act o) -> uniq (sm_actC o) -> J o -> (forall (o : sm S) y, J o -> exists o', sm_upd o y u dt = Ok o' /\ J o') ->
  exists o1 x' P', ukfvs_predict par o x P u dt = Ok (o1, x', P') /\ J o1.
Proof.
move=> N hp ua uc jo hJ; pose f := @aix _ (sm_act o); pose fc := @aix _ (sm_actC o).
have jf : injective f := aix_inj ua; have jc : injective fc := aix_inj uc.
have hJ' (o1 : sm S) y : J o1 -> exists o', sm_upd o1 (put1 f y x) (put1 fc (get1 fc u) u) dt = Ok o' /\ J o'.
  by move=> j1; rewrite put_get1 //; exact: hJ.
have [o1 [x1 [P1 e]]] := predict_total (S := sub_nonlin f fc x u S) hp (get1 f x) (get2 f f P) jo hJ'.
have dsub : default_sys (sub_nonlin f fc x u S) by [].
have [|_ [_ [_ [_ _ _ [j1 _] _]]]] := predict_shape (S := sub_nonlin f fc x u S) dsub hp (J1 := fun _ => True) (Q := fun _ _ => True) jo _ e.
  move=> o2 y o3 j2 /= e3; have [o4 [e4 j4]] := hJ' o2 y j2; move: e4; rewrite e3 => -[->].
  by [].
have := sub_predict jf jc dS par o x P u dt; rewrite e -/(ukfvs_predict par o x P u dt).
case: (ukfvs_predict par o x P u dt) => [[[o2 x2] P2]|//] /= [e2 _ _]; exists o2, x2, P2; split => //.
by rewrite -e2.
Qed.

(** C47: ... and the whole covariance too when active and inactive states are uncorrelated *)
Theorem C47_ukfvs_predict_partial (o o1 : sm S) x P u dt x' P' :
  let N := size (eff (sm_act o)) in
  set_sigma N alpha kappa beta = Ok par -> 0 < alpha ^+ 2 * (N%:R + kappa) -> alpha ^+ 2 <= beta ->
  ukfvs_predict par o x P u dt = Ok (o1, x', P') -> uniq (sm_act o) -> uniq (sm_actC o) ->
  psd (sm_Rp o1) -> psd (sm_Rc o1) -> psd P -> uncorrelated (sm_act o) P -> psd P' /\ uncorrelated (sm_act o) P'.
Proof.
move=> N hp ha hb e ua uc pp pc pP un; split; last first.
  move=> a b ia ib; rewrite (C46_ukfvs_predict_cov_partial e (or_intror ib)) (C46_ukfvs_predict_cov_partial e (or_introl ib)).
  exact: un.
have := C48_ukfvs_predict_psd hp ha hb e ua uc pp pc.
move: e; rewrite /ukfvs_predict /ukfvs_predict_with; case: (sys_eval _ _ _ _) => [[o2 y0]|//] /=; case: (wr _ _ _) => [c0|//] /=.
case: (sigma_loop _ _ _) => [[o3 cc]|//] /=; case: (rd _) => [pts|//] /= [eo _ <-]; subst o3.
have jf := aix_inj ua; rewrite get_put2 // => pN.
by apply: put2_psd => //; exact: uncorr_aix.
Qed.
Theorem C47_ukfvs_correct_partial (J : mm M -> Prop) (o : sm S) (q : mm M) x P z dt :
  let N := size (eff (sm_act o)) in
  set_sigma N alpha kappa beta = Ok par -> 0 < alpha ^+ 2 * (N%:R + kappa) -> alpha ^+ 2 <= beta ->
  uniq (sm_act o) -> uniq (mm_act q) ->
  J q -> (forall (q : mm M) y, J q -> exists q', mm_upd q y dt = Ok q' /\ J q' /\ pd (mm_cov q')) ->
  pd P -> uncorrelated (sm_act o) P ->
  exists q1 x' P', ukfvs_correct par o q x P z dt = Ok (q1, x', P') /\ psd P' /\ uncorrelated (sm_act o) P'.
Proof.
move=> N hp ha hb ua um j hJ pP un; have jf := aix_inj ua.
have [q1 [x' [P' [e [_ [pN _]]]]]] := C48_ukfvs_correct_pd x z hp ha hb ua um j hJ (get2_pd jf pP).
exists q1, x', P'; split => //; split; last first.
  have [d _] := dS o.
  by move=> a b ia ib; have [_ /(_ a)[-> ->]] := C46_ukfvs_correct_partial d e ib; have [-> ->] := un a b ia ib.
move: e pN; rewrite /ukfvs_correct /ukfvs_correct_with; case: (meas_eval _ _ _) => [[o2 y0]|//] /=; case: (wr _ _ _) => [c0|//] /=.
case: (sigma_loop _ _ _) => [[o3 cc]|//] /=; case: (rd _) => [pts|//] /=; case: (inverse _) => [inv|//] /= [eo _ <-]; subst o3.
rewrite get_put2 // => pN.
by apply: put2_psd => //; [exact: uncorr_aix|exact: pd_psd|exact: pd_psd].
Qed.
(** C46: an inactive state that the model keeps is kept by a prediction *)
Theorem C46_ukfvs_predict_partial (o o1 : sm S) x P u dt x' P' a :
  let N := size (eff (sm_act o)) in
  set_sigma N alpha kappa beta = Ok par ->
  (forall (o : sm S) y o', sm_upd o y u dt = Ok o' -> ns_g o' a 0 = y a 0) ->
  ukfvs_predict par o x P u dt = Ok (o1, x', P') -> inactive (sm_act o) a -> x' a 0 = x a 0.
Proof.
move=> N hp hg; rewrite /ukfvs_predict /ukfvs_predict_with; case e0: (sys_eval _ _ _ _) => [[o2 y0]|//] /=; rewrite -/N.
have [hn hc hnz hwm _] := set_sigma_ok hp.
rewrite wr_ok /=; last by rewrite size_nseq hn addn1.
have -> : set_nth None (nseq (up_num par) None) 0 (Some y0) = Some y0 :: nseq (2 * N) None by rewrite hn addn1.
have ev (o' : sm S) y o'' g : sys_eval u dt o' y = Ok (o'', g) -> g a 0 = y a 0.
  by rewrite /sys_eval; case eu: (sm_upd _ _ _ _) => [o3|//] /= [_ <-]; exact: hg eu.
case el: (sigma_loop _ _ _) => [[o3 cc]|//] /= h ia; move: h.
have out : forall i, @aix _ (sm_act o) i != a := inactive_out ia.
have [||yh [yl [-> _ hh hl]]] := @sigma_loop_run _ _ _ _ _ (fun _ => True) (fun _ (g : 'cV[R]_n) => g a 0 = x a 0) (fun _ (g : 'cV[R]_n) => g a 0 = x a 0) o2 y0 o3 cc _ _ I el.
- move=> o' i o'' g _ /ev ->; split => //; have [-> _] := dS o'.
  by rewrite /add_default mxE put1_out // mxE addr0.
- move=> o' i o'' g _ /ev ->; split => //; have [_ [-> _]] := dS o'.
  by rewrite /sub_default !mxE put1_out // mxE subr0.
move=> /= [_ <- _]; have [_ [_ ->]] := dS o3; rewrite hwm wsum_columns !mxE summxE (ev _ _ _ _ e0).
rewrite (eq_bigr (fun _ => x a 0 + x a 0)) => [|i _]; last by rewrite mxE hh hl.
rewrite sumr_const card_ord -[(_ + _) *+ N]mulr_natr.
have e : up_lambda par = (N%:R + up_lambda par) - N%:R by rewrite addrC addKr.
move: hnz e; move: (N%:R + _) => l hnz ->; move: (N%:R) (x a 0) => v w.
have h2 : (2%:R : R) != 0 by rewrite pnatr_eq0.
have -> : (l - v) / l * w + 1 / 2%:R / l * ((w + w) * v) = l / l * w - v / l * w + (2%:R / 2%:R) * (v / l * w) by mcring R.
by rewrite !divff // !mul1r subrK.
Qed.
End Active.
End VSU.

(** ** A concrete case: two states, the first one active, g squares the first state, h squares
    it too; P = 1.  All hypotheses of C46 - C48 hold and the results exist. *)
Section Witness.
Delimit Scope nat_scope with N.
Variable R : rcfType.
Let i0 : 'I_2 := ord0.
Let i1 : 'I_2 := ord_max.
Let S : NonlinSys R unit 2 1 2 :=
  fn_sys unit (fun y : 'cV[R]_2 => \col_i (if i == i0 then y i 0 ^+ 2 else y i 0)) (fun y => 1%:M) 1%:M 0 1%:M [:: i0] [::].
Let M : NonlinMeas R unit 2 1 := fn_meas unit (fun y : 'cV[R]_2 => \col_(i < 1) (y 0 0 * y 0 0)) (fun y => 0) [:: ord0].
Example VS_nonvacuous (x : 'cV[R]_2) (u z : 'cV[R]_1) :
  let o : sm S := (x, 1%:M : 'M[R]_1) in let q : mm M := (x, 1%:M) in let P : 'M[R]_2 := 1%:M in
  exists par, set_sigma (size (eff (sm_act o))) (1 / 1000%:R) 0 2%:R = Ok par
   /\ uniq (sm_act o) /\ uniq (sm_actC o) /\ uniq (mm_act q) /\ inactive (sm_act o) i1 /\ uncorrelated (sm_act o) P
   /\ psd P /\ pd P /\ default_sys S /\ default_meas M
   /\ (forall (o : sm S) y o', sm_upd o y u tt = Ok o' -> ns_g o' i1 0 = y i1 0)
   /\ (exists o' x' P', ukfvs_predict par o x P u tt = Ok (o', x', P') /\ psd P' /\ x' i1 0 = x i1 0)
   /\ (exists q' x' P', ukfvs_correct par o q x P z tt = Ok (q', x', P') /\ psd P')
   /\ (exists o' x' P', ekfvs_predict o x P u tt = Ok (o', x', P') /\ psd P')
   /\ (exists q' x' P', ekfvs_correct o q x P z tt = Ok (q', x', P') /\ psd P').
Proof.
move=> o q P; have dS : default_sys S by []; have dM : default_meas M by []; have [hc hb] := @default_ok R 1 erefl.
have [|par [hs [_ [_ [hn _]]]]] := @C49_weights R 1 (1 / 1000%:R) 0 2%:R; first by rewrite lt0r_neq0.
have ua : uniq (sm_act o) by []; have uc : uniq (sm_actC o) by []; have um : uniq (mm_act q) by [].
have ia : inactive (sm_act o) i1 by [].
have un : uncorrelated (sm_act o) P.
  move=> a b ha [_ hb']; have ea : a = i0 by have [i ->] := not_inactive ha; rewrite /aix (tnth_nth i0) /=; case: i => -[].
  have nb : b != i0 by move: hb'; rewrite inE.
  by rewrite ea !mxE eq_sym (negbTE nb).
have p1 : pd P by exact: pd1.
have q1 : pd (1%:M : 'M[R]_1) by exact: pd1.
have pP : psd P by exact: pd_psd.
have hg : forall (o : sm S) y o', sm_upd o y u tt = Ok o' -> ns_g o' i1 0 = y i1 0 by move=> o1 y o2 [<-]; rewrite /= mxE.
exists par; do 11 (split => //).
split.
  have [|o2 [x2 [P2 [ep hR]]]] := @C48_ukfvs_predict_defined _ _ _ _ _ S dS _ _ _ par (fun o => o.2 = 1%:M) o x P u tt hs ua uc erefl.
    by move=> [y1 Q1] y e1; exists (y, Q1).
  have pc : psd (sm_Rc o2) by rewrite /= hR; exact: pd_psd.
  exists o2, x2, P2; split => //; split.
    by have [] := C47_ukfvs_predict_partial dS hs hc hb ep ua uc (pd_psd (pd1 R 2)) pc pP un.
  exact: (C46_ukfvs_predict_partial dS hs hg ep ia).
split.
  have [|q2 [x2 [P2 [ep [h2 _]]]]] := C47_ukfvs_correct_partial (M := M) (J := fun q => q.2 = 1%:M) (q := q) dS dM x z (dt := tt) hs hc hb ua um erefl _ p1 un.
    by move=> [y1 Q1] y e1; exists (y, Q1); do 2 split => //; move: e1 => /= ->.
  by exists q2, x2, P2.
split.
  do 3 eexists; split; first reflexivity.
  by have [] := @C47_ekfvs_predict_partial R unit _ _ _ S o o x P u tt _ _ erefl ua (pd_psd (pd1 R 2)) (pd_psd q1) pP un.
have [x2 [P2 [ep _]]] := C48_ekfvs_correct_psd (M := M) (q := q) (dt := tt) z erefl ua um (get2_psd _ pP) q1.
exists q, x2, P2; split; first exact: ep.
by have [] := C47_ekfvs_correct_partial ep ua um q1 pP un.
Qed.
End Witness.
