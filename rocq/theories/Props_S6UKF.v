(** C85, C87: UKF running on the six_d_rates system model. *)
From Coq Require Import Reals Lra ZArith.
From mathcomp Require Import all_ssreflect all_algebra.
From Verif Require Import Outcome FB_Model ActiveSets Geo Integration Props_Integration SixD Props_SixD Props_SixDArith S6_Real.
From Verif Require Import McRing LinAlg KF_Model UKF_Model UKF_Lemmas UKF_Algebra RealField S6_Filter Props_S6Filter.
Set Implicit Arguments.
Unset Strict Implicit.
Unset Printing Implicit Defensive.
Import GRing.Theory Num.Theory Order.TTheory.
Local Open Scope ring_scope.

Section Step.
Variables (T : Type) (secs : T -> R).
Let S := six_d_sys secs.

(** ** C85: gravity keeps its magnitude when a UKF predicts *)
Definition C85_claim : Prop := forall (par : UKFPar R_rcfType) (o o' : S6Obj) x P u dt x' (P' : 'M[R]_18),
  default_sigma R_rcfType 18 = Ok par -> s6_api secs o -> psd (so_Rp o) -> psd P -> gravity_std x ->
  ukf_predict (R := R_rcfType) (S := S) par o x P u dt = Ok (o', x', P') -> gravity_std x'.

Lemma llt0 n : llt_L (0 : 'M[R_rcfType]_n) = 0.
Proof.
apply/matrixP => i j; rewrite !mxE /=.
suff -> : llt_loop (0 : 'M[R_rcfType]_n) (enum 'I_n) = 0 by rewrite mxE if_same.
case: (enum 'I_n) => [//|k ks] /=; rewrite /llt_pivot mxE big1 ?subr0 ?lexx // => l _; by rewrite mxE expr0n.
Qed.

Lemma wcov_copies n (acc : 'M[R_rcfType]_n) ws (d : 'cV[R_rcfType]_n) :
  wcov acc ws (nseq (size ws) (d, d)) = acc + (\sum_(w <- ws) w) *: (d *m d^T).
Proof.
rewrite /wcov; elim: ws acc => [|w ws IH] acc; first by rewrite /= big_nil scale0r addr0.
by rewrite /= IH big_cons scalerDl -scalemxAl addrA.
Qed.

(** *** What happens when the estimate is certain: every sigma point is the estimate *)
Definition Y (o : S6Obj) (x : 'cV[R]_18) (dt : T) : 'cV[R]_18 := to_vec 18 (s6_predict (usage_of (s6_set (so_m o))) (of_vec x) (secs dt)).
Lemma of_vec_std (v : vecn) : std_gravity v -> std_gravity (of_vec (to_vec 18 v)).
Proof. by rewrite !std_gravity_def seg_to_vec. Qed.
Lemma add0 (x : 'cV[R]_18) : std_gravity (of_vec x) -> to_vec 18 (s6_addState (of_vec x) (of_vec (0 : 'cV[R]_18))) = x.
Proof.
move=> h; rewrite -[RHS]to_of_vec; apply/colP => i; rewrite !mxE; apply: addState_zero => // j.
by rewrite /of_vec; case: insub => //= a; rewrite mxE.
Qed.
Lemma sub0 (x : 'cV[R]_18) : std_gravity (of_vec x) -> to_vec 18 (s6_subtractState (of_vec x) (of_vec (0 : 'cV[R]_18))) = x.
Proof.
move=> h; rewrite -[RHS]to_of_vec; apply/colP => i; rewrite !mxE; apply: subtractState_zero => // j.
by rewrite /of_vec; case: insub => //= a; rewrite mxE.
Qed.
Lemma map_const (A B : Type) (b : B) (l : seq A) : [seq b | _ <- l] = nseq (size l) b.
Proof. by elim: l => //= _ l ->. Qed.
Lemma repeatE (A : Type) (a : A) k : List.repeat a k = nseq k a.
Proof. by elim: k => //= k ->. Qed.
Lemma lengthE (A : Type) (l : seq A) : length l = size l.
Proof. by []. Qed.

Definition J (o : S6Obj) (o1 : S6Obj) : Prop := s6_set (so_m o1) = s6_set (so_m o) /\ so_Rp o1 = so_Rp o.
Lemma certain_points (par : UKFPar R_rcfType) (o o' : S6Obj) x u dt x' (P' : 'M[R]_18) (a k b : R) :
  set_sigma (R := R_rcfType) 18 a k b = Ok par -> std_gravity (of_vec x) ->
  ukf_predict (R := R_rcfType) (S := S) par o x 0 u dt = Ok (o', x', P') ->
  [/\ so_Rp o' = so_Rp o, x' = s6_obj_wsum (up_wm par) (nseq 37 (Y o x dt)) &
     P' = wcov (R := R_rcfType) (sm_P (s := S) o' *m sm_Rp (s := S) o' *m (sm_P (s := S) o')^T) (up_wc par)
         [seq (to_vec 18 (s6_subtractState (of_vec y) (of_vec x')), to_vec 18 (s6_subtractState (of_vec y) (of_vec x'))) | y <- nseq 37 (Y o x dt)]].
Proof.
move=> hp hx; have [en _ _ _ _] := set_sigma_ok hp.
rewrite /ukf_predict en scaler0 llt0 => h.
case: (obind_ok _ _ _ h) => -[o1 y0] [e1 {}h]; case: e1 => eo1 ey0.
case: (obind_ok _ _ _ h) => c0 [e2 {}h]; rewrite wr_ok ?size_nseq // in e2; case: e2 => e2.
have c0E : c0 = Some y0 :: nseq (2 * 18) None by rewrite -e2.
case: (obind_ok _ _ _ h) => -[o2 c] [e3 {}h]; rewrite c0E in e3.
subst o1; set o1 := mkS6Obj _ _ _ _ _ in ey0 e3.
have j1 : J o o1 by [].
have evalE o3 y o4 y4 : J o o3 -> y = x -> sys_eval (R := R_rcfType) (S := S) u dt o3 y = Ok (o4, y4) -> J o o4 /\ y4 = Y o x dt.
  by move=> [j3 j3'] -> [<- <-]; split => //; rewrite /Y /= j3.
have col0' i : col i (0 : 'M[R]_18) = 0 by apply/colP => l; rewrite !mxE.
have [yh [yl [er jo qh ql]]] := @sigma_loop_run _ _ 18 _ _ (J o) (fun _ y => y = Y o x dt) (fun _ y => y = Y o x dt) _ _ _ _
  (fun o3 i o4 y j e => evalE _ _ _ _ j (etrans (congr1 _ (col0' i)) (add0 hx)) e)
  (fun o3 i o4 y j e => evalE _ _ _ _ j (etrans (congr1 _ (col0' i)) (sub0 hx)) e) j1 e3.
have y0E : y0 = Y o x dt by rewrite -ey0.
have colsE : columns y0 yh yl = nseq 37 (Y o x dt).
  rewrite /columns y0E -[nseq 37 _]/(_ :: nseq (18 + 18) _) nseqD; congr (_ :: _ ++ _).
    by rewrite (eq_map qh) map_const size_enum_ord.
  by rewrite (eq_map ql) map_const size_enum_ord.
have z : sm_V (s := S) o2 *m sm_Rc (s := S) o2 *m (sm_V (s := S) o2)^T = 0 by rewrite /= !mul0mx.
move: h; rewrite er colsE; move: (nseq 37 _) => ys.
rewrite -[obind _ _]/(Ok _) z addr0 => -[<- <- <-]; split => //; by case: jo.
Qed.

Lemma natrE n : n%:R = INR n :> R.
Proof. by elim: n => [//|n IH]; rewrite S_INR -addn1 natrD IH. Qed.
Lemma nat36 : 36%:R = IZR 36 :> R.
Proof. rewrite natrE INR_IZR_INZ //. Qed.
Lemma sgnE (r : R) : sgn r = if 0 < r then 1 else if r < 0 then -1 else 0.
Proof.
rewrite /sgn; case: Rlt_dec => /RltP h; first by rewrite h.
by rewrite (negbTE h); case: Rlt_dec => /RltP h'; [rewrite h'|rewrite (negbTE h')].
Qed.
Lemma sgn_pos (r : R) : 0 < r -> sgn r = 1.
Proof. by move=> h; rewrite sgnE h. Qed.
Lemma sgn_scale (r c q : R) : 0 < c -> q = r / c -> sgn q = sgn r.
Proof.
move=> h ->; have hc : 0 < c^-1 by rewrite invr_gt0.
by rewrite !sgnE pmulr_lgt0 // pmulr_llt0.
Qed.
Lemma sgn_nseq (w0 w : R) k : 0 < w -> List.fold_right (fun c a => Rplus (sgn c) a) 0%R (w0 :: nseq k w) = sgn w0 + k%:R.
Proof.
move=> h /=; congr (_ + _); elim: k => //= k ->; rewrite sgn_pos // -addn1 natrD addrC //.
Qed.
Lemma total_sum w : total w = \sum_(a <- w) a.
Proof. by elim: w => [|a w IH]; rewrite ?big_nil ?big_cons //= IH. Qed.

(** the model's own prediction, from the middle sigma point *)
Lemma Y_std o x dt : std_gravity (of_vec x) -> std_gravity (of_vec (Y o x dt)).
Proof.
move=> h; apply: of_vec_std; rewrite !std_gravity_def.
exact: predict_std.
Qed.
Section Certain.
Variables (a k b : R) (par : UKFPar R_rcfType) (o o' o1 : S6Obj) (x x' : 'cV[R]_18) (u : 'cV[R]_0) (dt : T) (P' : 'M[R]_18).
Hypothesis hp : set_sigma (R := R_rcfType) 18 a k b = Ok par.
Hypothesis hc : 0 < a ^+ 2 * (18%:R + k).
Hypothesis hx : norm (gravity x) = g_std.
Hypothesis h1 : s6_obj_upd secs o x u dt = Ok o1.
Hypothesis h : ukf_predict (R := R_rcfType) (S := S) par o x 0 u dt = Ok (o', x', P').
Let y : 'cV[R]_18 := to_vec 18 (s6_g (so_m o1)).
Let yE : Y o x dt = y.
Proof. by rewrite /y; case: h1 => <-. Qed.
Let ystd : std_gravity (of_vec y).
Proof. by rewrite -yE; apply: Y_std. Qed.
Let c : R := a ^+ 2 * (18%:R + k).
Let lE : up_lambda par = c - 18%:R.
Proof. have [_ e _ _ _] := set_sigma_ok hp; have e' : (18%:R + up_lambda par : R) = c := e; by rewrite -e' addrAC subrr add0r. Qed.
Let wmE : up_wm par = (c - 18%:R) / c :: nseq 36 (1 / 2%:R / c).
Proof. have [_ e _ -> _] := set_sigma_ok hp; have e' : (18%:R + up_lambda par : R) = c := e; by rewrite e' lE. Qed.
Let n2 : (2%:R : R) != 0.
Proof. by rewrite pnatr_eq0. Qed.
Let wm_total : total (up_wm par) = 1.
Proof.
have c0 : (c : R_rcfType) != 0 by rewrite gt_eqF.
rewrite total_sum wmE big_cons big_nseq iter_addr_0 -[_ *+ 36]mulr_natl.
exact: (wm_sum 18 c0).
Qed.
(** the gravity of the predicted state: one full vector for each of the 36 outer sigma points, plus
    or minus one for the middle one *)
Lemma certain_gravity : gravity x' = vscale (36 + sgn (up_lambda par)) (gravity y).
Proof.
have [_ -> _] := certain_points hp hx h.
have [s [e [g _]]] := sum_copies (up_wm par) _ ystd.
rewrite /s6_obj_wsum map_nseq yE -repeatE.
have -> : 37%N = length (up_wm par) by rewrite wmE /=.
rewrite e /gravity seg_to_vec // g; congr vscale.
rewrite wmE sgn_nseq; last by rewrite !divr_gt0 ?ltr01 ?ltr0n.
rewrite (sgn_scale hc erefl) lE addrC; congr Rplus; exact: nat36.
Qed.

(** every other component of the prediction is that of the model *)
Lemma certain_others (i : 'I_18) : (i < 9)%N || (11 < i)%N -> x' i 0 = y i 0.
Proof.
move=> hi; have [_ -> _] := certain_points hp hx h.
have [s [e [_ g]]] := sum_copies (up_wm par) _ ystd.
rewrite /s6_obj_wsum map_nseq yE -repeatE.
have -> : 37%N = length (up_wm par) by rewrite wmE /=.
rewrite e mxE g; last by case/orP: hi => /ssrnat.ltP; [left|right].
rewrite wm_total; transitivity (of_vec y i); [exact: mul1r | by rewrite /of_vec valK].
Qed.
(** the gravity vector of the model's prediction, with zeros for all other components *)
Definition only_gravity (v : 'cV[R]_18) : 'cV[R]_18 := \col_i if (9 <= i <= 11)%N then v i 0 else 0.
Lemma certain_cov : P' = sm_P (s := S) o' *m so_Rp o *m (sm_P (s := S) o')^T
  + (2%:R - a ^+ 2 + b) *: (only_gravity y *m (only_gravity y)^T).
Proof.
have [eR ex eP] := certain_points hp hx h.
have d : to_vec 18 (s6_subtractState (of_vec y) (of_vec x')) = - only_gravity y.
  have [f1 fE] : exists f, (f = Rplus 36 (sgn (up_lambda par))) by eexists.
  have hf : Rlt 1 f1 by rewrite fE /sgn; case: Rlt_dec => _; last case: Rlt_dec => _; Lra.lra.
  have ho (i : nat) : (i < 9)%coq_nat \/ (11 < i)%coq_nat -> of_vec x' i = of_vec y i.
    move=> hi; rewrite /of_vec; case: insubP => // j _ ej; apply: certain_others.
    by rewrite ej; case: hi => /ssrnat.ltP -> //; rewrite orbT.
  have [d1 d2] := sub_copies _ _ _ ystd hf (etrans certain_gravity (congr1 (fun z => vscale z _) (esym fE))) ho.
  apply/colP => i; rewrite !mxE.
  case: ifP => hi.
    have -> : s6_g (so_m o1) i = of_vec y i by rewrite /of_vec valK mxE.
    case/andP: hi => h9 h11; have h11' : (i < 12)%N := h11.
    by apply: (seg_neg _ _ d2); split; apply: ssrnat.ltP.
  rewrite oppr0; apply: d1; move: hi => /negbT; rewrite negb_and -!ltnNge; by case/orP => /ssrnat.ltP; [left|right].
have eR' : sm_Rp (s := S) o' = so_Rp o by [].
rewrite eP yE map_nseq d eR'.
have [_ e _ _ ewc] := set_sigma_ok hp.
have wcE : up_wc par = (c - 18%:R) / c + 1 - a ^+ 2 + b :: nseq 36 (1 / 2%:R / c).
  have e' : (18%:R + up_lambda par : R) = c := e.
  by rewrite ewc e' lE.
have -> : 37%N = size (up_wc par) by rewrite wcE.
have t (v : 'cV[R]_18) : - v *m (- v)^T = v *m v^T by rewrite raddfN /= mulmxN mulNmx opprK.
rewrite wcov_copies t; congr (_ + _ *: _).
have c0 : (c : R_rcfType) != 0 by rewrite gt_eqF.
rewrite wcE big_cons big_nseq iter_addr_0 -[_ *+ 36]mulr_natl.
exact: (wc_sum 18 a b c0).
Qed.
End Certain.
(** so: with any parameters that make sense, the predicted gravity has at least 35 times the
    standard magnitude *)
Theorem C85_certain_partial (a k b : R) (par : UKFPar R_rcfType) (o o' o1 : S6Obj) (x x' : 'cV[R]_18) (u : 'cV[R]_0) (dt : T) (P' : 'M[R]_18) :
  set_sigma (R := R_rcfType) 18 a k b = Ok par -> 0 < a ^+ 2 * (18%:R + k) ->
  norm (gravity x) = standard -> s6_obj_upd secs o x u dt = Ok o1 ->
  ukf_predict (R := R_rcfType) (S := S) par o x 0 u dt = Ok (o', x', P') ->
  gravity x' = vscale (36 + sgn (up_lambda par)) (gravity (@ns_g _ _ _ _ _ S o1))
  /\ Rle (35 * standard) (norm (gravity x'))
  /\ forall i : 'I_18, (i < 9)%N || (11 < i)%N -> x' i 0 = @ns_g _ _ _ _ _ S o1 i 0.
Proof.
move=> hp hc hx h1 h; have e := certain_gravity hp hc hx h1 h.
split; first exact: e.
split; last by move=> i; apply: (certain_others hp hc hx h1 h).
change standard with g_std; rewrite e norm_scale; have -> : norm (gravity (to_vec 18 (s6_g (so_m o1)))) = g_std.
  by have := Y_std o dt hx; rewrite /Y !std_gravity_def; case: h1 => <-.
have gp := gstd_pos.
have s1 : Rle (-1) (sgn (up_lambda par)) by rewrite /sgn; case: Rlt_dec => _; last case: Rlt_dec => _; Lra.lra.
rewrite Rabs_pos_eq; last by Lra.lra.
apply: Rmult_le_compat_r; Lra.lra.
Qed.
(** gravity is right again after the next correction: addVectors rescales it *)
Theorem C85_correct_partial k (M : NonlinMeas R_rcfType T 18 k) (par : UKFPar R_rcfType) (o : S6Obj) (q q' : mm M) x P z dt x' (P' : 'M[R]_18) :
  ukf_correct (R := R_rcfType) (S := S) (M := M) par o q x P z dt = Ok (q', x', P') -> gravity_std x'.
Proof.
move=> h; case: (obind_ok _ _ _ h) => -[q1 y1] [_ {}h]; case: (obind_ok _ _ _ h) => c0 [_ {}h].
case: (obind_ok _ _ _ h) => -[q2 c] [_ {}h]; case: (obind_ok _ _ _ h) => pts [_ {}h].
case: (obind_ok _ _ _ h) => inv [_ [_ <- _]]; exact: gravity_add.
Qed.
Lemma default_ok : exists par, default_sigma R_rcfType 18 = Ok par.
Proof. by apply: set_sigma_total; rewrite addr0 mulf_neq0 // ?expf_neq0 // ?mulf_neq0 ?invr_eq0 ?oner_eq0 // pnatr_eq0. Qed.
Lemma default_pos : 0 < (1 / 1000%:R : R_rcfType) ^+ 2 * (18%:R + 0).
Proof.
have h k : 0 < (k.+1%:R : R_rcfType) by rewrite ltr0n.
by rewrite addr0; apply: mulr_gt0; [apply: exprn_gt0; apply: divr_gt0; [apply: ltr01|apply: h]|apply: h].
Qed.
Lemma predict_total (par : UKFPar R_rcfType) a k b (o : S6Obj) x P u dt : set_sigma (R := R_rcfType) 18 a k b = Ok par ->
  exists r, ukf_predict (R := R_rcfType) (S := S) par o x P u dt = Ok r.
Proof.
move=> hp; have [en _ _ _ _] := set_sigma_ok hp.
rewrite /ukf_predict en; set off := llt_L _.
have [o1 [y0 e1]] : exists o1 y0, sys_eval (R := R_rcfType) (S := S) u dt o x = Ok (o1, y0) by do 2 eexists.
have e0 : wr (nseq (2 * 18 + 1) None) 0 y0 = Ok (Some y0 :: nseq (2 * 18) None) by [].
rewrite e1; cbn [obind]; rewrite e0; cbn [obind].
have ev (o3 : sm S) y : True -> exists o4 y4, sys_eval (R := R_rcfType) (S := S) u dt o3 y = Ok (o4, y4) /\ True by do 2 eexists.
have [o2 [c e2]] := @sigma_loop_total _ _ 18 _ _ (fun _ => True) o1 y0 I (fun o3 i => @ev o3 (sm_add o3 x (col i off))) (fun o3 i => @ev o3 (sm_sub o3 x (col i off))).
have [yh [yl [er _ _ _]]] := @sigma_loop_run _ _ 18 _ _ (fun _ => True) (fun _ _ => True) (fun _ _ => True) o1 y0 o2 c (fun _ _ _ _ _ _ => conj I I) (fun _ _ _ _ _ _ => conj I I) I e2.
rewrite e2; cbn [obind]; rewrite er; cbn [obind]; by eexists.
Qed.
Theorem C85_refuted (dt : T) : ~ C85_claim.
Proof.
move=> H; have [par hp] := default_ok.
pose o := s6_obj_new true true; pose x : 'cV[R]_18 := to_vec 18 (put_seg (fun _ => 0%R) s6_GX (mkV 0 0 g_std)).
have gp := gstd_pos.
have hx : norm (gravity x) = g_std by rewrite /gravity seg_to_vec // seg_put_seg norm_z //; apply: Rlt_le.
have [[[o' x'] P'] h] := @predict_total par _ _ _ o x 0 0 dt hp.
have [o1 h1] : exists o1, s6_obj_upd secs o x 0 dt = Ok o1 by eexists.
have [_ [g _]] := C85_certain_partial hp default_pos hx h1 h.
have := H par o o' x 0 0 dt x' P' hp (api_new _ _ _) (psd0 _ _) (psd0 _ _) (or_introl hx) h.
change standard with g_std in g; case=> e; first by rewrite e in g; change standard with g_std in g; Lra.lra.
by rewrite e norm_zero in g; Lra.lra.
Qed.

(** ** C87: a UKF that is certain of the state, predicting without noise, stays certain *)
Definition C87_claim : Prop := forall (par : UKFPar R_rcfType) (o o' : S6Obj) x u dt x' (P' : 'M[R]_18),
  default_sigma R_rcfType 18 = Ok par -> s6_api secs o -> so_Rp o = 0 -> gravity_std x ->
  ukf_predict (R := R_rcfType) (S := S) par o x 0 u dt = Ok (o', x', P') -> P' = 0.
(** instead the covariance gets 2 - alpha^2 + beta (with the default parameters almost 4) times the
    gravity vector times its transpose, on top of the process noise *)
Theorem C87_partial (a k b : R) (par : UKFPar R_rcfType) (o o' o1 : S6Obj) (x x' : 'cV[R]_18) (u : 'cV[R]_0) (dt : T) (P' : 'M[R]_18) :
  set_sigma (R := R_rcfType) 18 a k b = Ok par -> 0 < a ^+ 2 * (18%:R + k) ->
  norm (gravity x) = standard -> s6_obj_upd secs o x u dt = Ok o1 ->
  ukf_predict (R := R_rcfType) (S := S) par o x 0 u dt = Ok (o', x', P') ->
  P' = sm_P (s := S) o' *m so_Rp o *m (sm_P (s := S) o')^T
     + (2%:R - a ^+ 2 + b) *: (only_gravity (@ns_g _ _ _ _ _ S o1) *m (only_gravity (@ns_g _ _ _ _ _ S o1))^T).
Proof. exact: certain_cov. Qed.
Theorem C87_refuted (dt : T) : ~ C87_claim.
Proof.
move=> H; have [par hp] := default_ok.
pose o := s6_obj_new true true; pose x : 'cV[R]_18 := to_vec 18 (put_seg (fun _ => 0%R) s6_GX (mkV 0 0 g_std)).
have gp := gstd_pos.
have hx : norm (gravity x) = g_std by rewrite /gravity seg_to_vec // seg_put_seg norm_z //; apply: Rlt_le.
have [[[o' x'] P'] h] := @predict_total par _ _ _ o x 0 0 dt hp.
have [o1 h1] : exists o1, s6_obj_upd secs o x 0 dt = Ok o1 by eexists.
have := H par o o' x 0 dt x' P' hp (api_new _ _ _) erefl (or_introl hx) h.
rewrite (C87_partial hp default_pos hx h1 h) /= mulmx0 mul0mx add0r => /eqP.
rewrite scaler_eq0; case/orP => [/eqP e|/eqP e].
  have := paddr_eq0 (x := 2%:R - (1 / 1000%:R : R) ^+ 2) (y := 2%:R); rewrite e eqxx pnatr_eq0 andbF ler0n.
  have s1 : (1 / 1000%:R : R) ^+ 2 <= 1.
    have p : (0 : R) < 1000%:R by rewrite ltr0n.
    have i1 : (1 / 1000%:R : R) <= 1 by rewrite ler_pdivr_mulr // mul1r ler1n.
    have i0 : (0 : R) <= 1 / 1000%:R by apply: divr_ge0; rewrite ?ler01 // ltW.
    by apply: exprn_ile1.
  have s2 : (0 : R) <= 2%:R - (1 / 1000%:R : R) ^+ 2 by rewrite subr_ge0; apply: le_trans s1 _; rewrite ler1n.
  by move=> /(_ s2 isT).
have z (i : 'I_18) : (9 <= i <= 11)%N -> of_vec (to_vec 18 (s6_g (so_m o1))) i = 0.
  move=> hi; have sq (v : 'cV[R]_18) : v *m v^T = 0 -> v i 0 = 0.
    move=> /matrixP /(_ i i); rewrite mxE big_ord1 [v^T _ _]mxE [RHS]mxE => /eqP.
    by rewrite mulf_eq0 orbb => /eqP.
  by have := sq _ e; rewrite /only_gravity mxE hi /of_vec valK.
have : norm (gravity (to_vec 18 (s6_g (so_m o1)))) = g_std.
  by have := Y_std o dt hx; rewrite /Y !std_gravity_def; case: h1 => <-.
have -> : gravity (to_vec 18 (s6_g (so_m o1))) = vzero.
  by rewrite /gravity /seg (z (@Ordinal 18 9 isT) isT) (z (@Ordinal 18 10 isT) isT) (z (@Ordinal 18 11 isT) isT).
by rewrite norm_zero; Lra.lra.
Qed.
End Step.
