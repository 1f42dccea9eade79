(** C97: the estimate of a KalmanFilter is the least-squares fit to everything it was told. *)
From mathcomp Require Import all_ssreflect all_algebra.
From Coq Require Import ZArith Permutation Sorted Lia.
From Verif Require Import Outcome FB_Model FB_Time FB_Basic FB_Spec FB_Replay FB_LogRun Props_FilterBase Props_Rewind FB_Trace McRing LinAlg KF_Algebra KF_Model FB_Alg KF_Filter Props_KF Props_KFRun LeastSquares.
Set Implicit Arguments.
Unset Strict Implicit.
Unset Printing Implicit Defensive.
Import GRing.Theory Num.Theory Order.TTheory.
Local Open Scope ring_scope.

(** ** Specification *)
Section Spec.
Variables (R : realFieldType) (n m p : nat).
Add Field Rfield : (mc_field R).

(** what a filter is told: the state moved, x' = A x + b + G w + V v with w, v of covariance Rp, Rc; or z = C x + e was
    measured, with e of covariance Q *)
Inductive event :=
| Moved (A : 'M[R]_n) (b : 'cV[R]_n) (G : 'M[R]_(n, p)) (Rp : 'M[R]_p) (V : 'M[R]_(n, m)) (Rc : 'M[R]_m)
| Measured k (C : 'M[R]_(k, n)) (z : 'cV[R]_k) (Q : 'M[R]_k).

Variables (x0 : 'cV[R]_n) (P0 : 'M[R]_n).
(** [explains ev y c]: some history - an initial state, noises, measurement errors - agrees with the events [ev]
    (latest first), ends in state y, and the squared Mahalanobis norms of its initial deviation, noises and errors add
    up to c *)
Fixpoint explains (ev : seq event) (y : 'cV[R]_n) (c : R) : Prop :=
  match ev with
  | [::] => penalty P0 (y - x0) c
  | Moved A b G Rp V Rc :: ev' => exists x w v c' cw cv,
      [/\ explains ev' x c', penalty Rp w cw, penalty Rc v cv, y = A *m x + b + G *m w + V *m v & c = c' + cw + cv]
  | Measured k C z Q :: ev' => exists c' ce, [/\ explains ev' y c', penalty Q (z - C *m y) ce & c = c' + ce]
  end.

(** (x, P) is the least-squares fit: the cheapest history that ends in y costs, above some base cost, the squared
    Mahalanobis distance of y from x under P *)
Definition fit (ev : seq event) (x : 'cV[R]_n) (P : 'M[R]_n) : Prop :=
  exists c, (forall y e, penalty P (y - x) e -> explains ev y (c + e)) /\
            (forall y d, explains ev y d -> exists e, penalty P (y - x) e /\ c + e <= d).

(** in particular x is the end of the cheapest history, and no other state is *)
Lemma fit_min ev x P : psd P -> fit ev x P ->
  exists c, explains ev x c /\ forall y d, explains ev y d -> c <= d /\ (d = c -> y = x).
Proof.
move=> pP [c [h1 h2]]; exists c; split.
  by rewrite -[c]addr0; apply: h1; rewrite subrr; exact: penalty0.
move=> y d /h2 [e [pe le]]; have e0 := penalty_ge0 pP pe; split; first by apply: le_trans le; rewrite ler_addl.
move=> ed; have ez : e = 0 by apply/eqP; rewrite eq_le e0 andbT; move: le; rewrite ed -[X in _ <= X]addr0 ler_add2l.
by apply/eqP; rewrite -subr_eq0; apply/eqP; apply: penalty_eq0 pP _; rewrite -ez.
Qed.

Lemma fit_init : fit [::] x0 P0.
Proof. by exists 0; split => y e h; [rewrite add0r|exists e; rewrite add0r]. Qed.

Lemma fit_moved ev x P A b G Rp V Rc : psd P -> psd Rp -> psd Rc -> fit ev x P ->
  fit (Moved A b G Rp V Rc :: ev) (A *m x + b) (A *m P *m A^T + G *m Rp *m G^T + V *m Rc *m V^T).
Proof.
move=> pP pRp pRc [c [h1 h2]]; exists c; split.
  move=> y e [v [ey ->]]; rewrite /= .
  exists (x + P *m (A^T *m v)), (Rp *m (G^T *m v)), (Rc *m (V^T *m v)), (c + qf P (A^T *m v)), (qf Rp (G^T *m v)), (qf Rc (V^T *m v)); split.
  - by apply: h1; rewrite addrC addKr; exists (A^T *m v).
  - by exists (G^T *m v).
  - by exists (V^T *m v).
  - rewrite -(subrK (A *m x + b) y) ey !mulmxDl mulmxDr !mulmxA; mxgroup R.
  - by rewrite !qfD !qf_congr !addrA.
move=> y d [y1 [w [v [c1 [cw [cv [/h2 [e [[l [el ->]] le]] [l2 [-> ->]] [l3 [-> ->]] -> ->]]]]]]].
have [u [eu hu]] := sum3_min A G V pP pRp pRc l l2 l3.
exists (qf (A *m P *m A^T + G *m Rp *m G^T + V *m Rc *m V^T) u); split.
  exists u; split => //; rewrite eu -el mulmxBr; mxgroup R.
by apply: le_trans (ler_add (lexx c) hu) _; rewrite !addrA !ler_add.
Qed.

Lemma fit_measured ev x P k (C : 'M[R]_(k, n)) z Q : psd P -> psd Q -> innov P C Q \in unitmx -> fit ev x P ->
  fit (Measured C z Q :: ev) (x + gain P C Q *m (z - C *m x)) ((1%:M - gain P C Q *m C) *m P).
Proof.
move=> pP pQ uS [c [h1 h2]]; set d := z - C *m x; exists (c + qf (invmx (innov P C Q)) d).
have sP' : sym ((1%:M - gain P C Q *m C) *m P) by case: (post_psd pP pQ uS).
split.
  move=> y e [l [el ->]].
  have [l1 [r [e1 e2]]] := corr_back pP pQ uS l d.
  have [l' [e3 e4]] := corr_forward pP pQ uS e2.
  have ey : y - x = P *m l1 by rewrite e1 -el; mxgroup R.
  exists (c + qf P l1), (qf Q r); split.
  - by apply: h1; rewrite ey; exists l1.
  - exists r; split => //; rewrite -e2 -ey mulmxBr /d; mxgroup R.
  - rewrite -!addrA e4 addrC [in RHS]addrC; congr (_ + _); rewrite addrC; congr (_ + _); apply: qf_eq => //.
    by rewrite e3 e1 addrK.
move=> y t [c' [ce [/h2 [e [[l [el ->]] le]] [r [er ->]] ->]]].
have [l' [e3 e4]] : exists m0, (1%:M - gain P C Q *m C) *m P *m m0 = P *m l - gain P C Q *m d /\ qf P l + qf Q r = qf ((1%:M - gain P C Q *m C) *m P) m0 + qf (invmx (innov P C Q)) d.
  by apply: corr_forward => //; rewrite -er -el mulmxBr /d; mxgroup R.
exists (qf ((1%:M - gain P C Q *m C) *m P) l'); split.
  exists l'; split => //; rewrite e3 -el; mxgroup R.
by rewrite -addrA [qf (invmx _) d + _]addrC -e4 addrA ler_add2r.
Qed.
End Spec.

(** C96: exact data.  [exact ev y]: the state started at x0, moved without noise, was measured without error, and is y *)
Section Exact.
Variables (R : realFieldType) (n m p : nat) (x0 : 'cV[R]_n) (P0 : 'M[R]_n).
Fixpoint exact (ev : seq (event R n m p)) (y : 'cV[R]_n) : Prop :=
  match ev with
  | [::] => y = x0
  | Moved A b _ _ _ _ :: ev' => exists x, exact ev' x /\ y = A *m x + b
  | Measured k C z _ :: ev' => exact ev' y /\ z = C *m y
  end.
Lemma exact_explains ev y : exact ev y -> explains x0 P0 ev y 0.
Proof.
elim: ev y => [|[A b G Rp V Rc|k C z Q] ev IH] y /=.
- by move=> ->; rewrite subrr; exact: penalty0.
- move=> [x [/IH h ->]]; exists x, 0, 0, 0, 0, 0; split => //; try exact: penalty0; last by rewrite !addr0.
  by rewrite !mulmx0 !addr0.
- by move=> [/IH h ->]; exists 0, 0; rewrite subrr addr0; split => //; exact: penalty0.
Qed.
Definition admissible (e : event R n m p) : Prop := match e with Moved _ _ _ Rp _ Rc => psd Rp /\ psd Rc | Measured _ _ _ Q => psd Q end.
Lemma explains_ge0 ev y c : psd P0 -> List.Forall admissible ev -> explains x0 P0 ev y c -> 0 <= c.
Proof.
move=> pP; elim: ev y c => [|e ev IH] y c ha /=; first exact: penalty_ge0.
inversion ha as [|? ? h1 h2]; subst; case: e h1 {ha} => [A b G Rp V Rc|k C z Q] /=.
  move=> [h3 h4] [x [w [v [c' [cw [cv [/IH h5 h6 h7 _ ->]]]]]]].
  by rewrite !addr_ge0 //; [exact: h5|exact: penalty_ge0 h6|exact: penalty_ge0 h7].
by move=> h3 [c' [ce [/IH h5 h6 ->]]]; rewrite addr_ge0 //; [exact: h5|exact: penalty_ge0 h6].
Qed.
Theorem C96_exact_data ev x P y : psd P0 -> List.Forall admissible ev -> psd P -> fit x0 P0 ev x P -> exact ev y -> x = y.
Proof.
move=> pP0 ha pP hf he; have [c [h1 h2]] := fit_min pP hf.
have [h3 h4] := h2 _ _ (exact_explains he); rewrite h4 //.
by apply/eqP; rewrite eq_le h3 andbT; exact: explains_ge0 h1.
Qed.
End Exact.

(** ** The filter *)
Section Filter.
Variables (R : realFieldType) (TT : TimeOps) (fin : TT -> Prop) (Hx : ExactTime TT fin) (n m p : nat).
Variables (S : LinSys R TT n m p) (O : SysOps S) (M : forall k, LinMeas R TT n k) (MO : forall k, MeasOps (M k)).
Let F := kf_alg O MO.
Let E := alg_env F.

(** the user's models: the matrices depend on the elapsed time and on the model object only; J, MJ hold of the objects *)
Variables (A : TT -> 'M[R]_n) (B : TT -> 'M[R]_(n, m)) (G : TT -> 'M[R]_(n, p)) (V : TT -> 'M[R]_(n, m)) (Rp : TT -> 'M[R]_p) (Rc : 'M[R]_m).
Variables (C : nat -> forall k, 'M[R]_(k, n)).
Variables (J : sm S -> Prop) (MJ : nat -> forall k, mm (M k) -> Prop).
Record timed : Prop := {
  td_upd : forall o x u dt, J o -> exists o', [/\ sm_upd o x u dt = Ok o', J o', ls_A o' = A dt, ls_B o' = B dt &
    [/\ sm_P o' = G dt, sm_V o' = V dt, sm_Rp o' = Rp dt & sm_Rc o' = sm_Rc o]];
  td_setRc : forall o r, J o -> J (so_setRc O o r) /\ sm_Rc (so_setRc O o r) = r;
  td_add : forall o, J o -> @sm_add _ _ _ _ _ S o = @add_default R n;
  td_check : forall o, J o -> so_check O o = false;
  td_Rp : forall dt, psd (Rp dt);
  td_Rc : psd Rc;
  tdm_upd : forall i k (q : mm (M k)) x dt, MJ i q -> exists q', [/\ mm_upd q x dt = Ok q', MJ i q', lm_C q' = C i k & mm_cov q' = mm_cov q];
  tdm_setCov : forall i k (q : mm (M k)) Q, MJ i q -> MJ i (mo_setCov (MO k) q Q) /\ mm_cov (mo_setCov (MO k) q Q) = Q;
  tdm_sub : forall i k (q : mm (M k)), MJ i q -> @mm_sub _ _ _ _ (M k) q = @sub_default R k;
  tdm_check : forall i k (q : mm (M k)), MJ i q -> mo_check (MO k) q = false
}.

(** what the user tells the filter: a control and when it ended, that time has passed, or a measurement for model i *)
Inductive news := Control (u : 'cV[R]_m) (t : TT) | Passed (t : TT) | Observed (i k : nat) (z : 'cV[R]_k) (Q : 'M[R]_k) (t : TT).
Definition when (a : news) : TT := match a with Control _ t | Passed t => t | Observed _ _ _ _ t => t end.
Definition as_input (a : news) : FInput E :=
  match a with
  | Control u t => ctl_input (E := E) (dm Rc) (dv u) t
  | Passed t => ctl_input (E := E) (dm Rc) (dv (0 : 'cV[R]_0)) t
  | Observed i k z Q t => meas_input (E := E) (dv z) (dm Q) t (Some i)
  end.
(** what it means, latest first: each control holds since the last event, and until another is given *)
Definition moved (dt : TT) (u : 'cV[R]_m) : event R n m p := Moved (A dt) (B dt *m u) (G dt) (Rp dt) (V dt) Rc.
Fixpoint meaning (now : TT) (u : 'cV[R]_m) (ev : seq (event R n m p)) (l : seq news) : seq (event R n m p) :=
  match l with
  | [::] => ev
  | Control u' t :: l' => meaning t u' (moved (tsub t now) u' :: ev) l'
  | Passed t :: l' => meaning t u (moved (tsub t now) u :: ev) l'
  | Observed i k z Q t :: l' => meaning t u (@Measured R n m p k (C i k) z Q :: moved (tsub t now) u :: ev) l'
  end.

Hypothesis H : timed.
Variables (x0 : 'cV[R]_n) (P0 : 'M[R]_n).

Definition told (c : Core E) (now : TT) (u : 'cV[R]_m) (ev : seq (event R n m p)) : Prop :=
  [/\ exists x P, [/\ f_x (c_cur c) = dv x, f_cov (c_cur c) = dm P, psd P & fit x0 P0 ev x P],
      f_ts (c_cur c) = now,
      J (c_sys c) /\ sm_Rc (c_sys c : sm S) = Rc,
      (forall i q, List.nth_error (c_meas c) i = Some q -> MJ i (projT2 q))
    & (c_pc c = dv (0 : 'cV[R]_0) /\ u = 0) \/ (c_pc c = dv u /\ c_pcc c = dm Rc)].

Lemma cv0 d (u v : 'cV[R]_d) : d = 0%nat -> u = v.
Proof. by move=> e; move: u v; rewrite e => u v; rewrite [u]flatmx0 [v]flatmx0. Qed.

(** the control in force: the one given, or else the last one *)
Lemma told_choose c now u ev u' (d : DV R) cv t mo : told c now u ev -> ((d = dv u' /\ cv = dm Rc) \/ (projT1 d = 0%nat /\ u' = u)) ->
  exists pc pcc, choose_control c (mkInput (E := E) d cv t true mo) = ((dv u', dm Rc), mkCore (E := E) (c_cur c) pc pcc (c_sys c) (c_meas c)) /\
    ((pc = dv (0 : 'cV[R]_0) /\ u' = 0) \/ (pc = dv u' /\ pcc = dm Rc)).
Proof.
case=> [_ _ [_ eRc] _ hpc] hd; rewrite /choose_control /= eRc.
case: c eRc hpc => [cur pc pcc sy ms] /= eRc hpc.
have last : projT1 d = 0%nat -> u' = u -> exists pc0 pcc0 : {d0 : nat & _},
   (if (0 <? projT1 pc)%nat then ((pc, pcc), mkCore (E := E) cur pc pcc sy ms) else ((dv (0 : 'cV[R]_m), dm Rc), mkCore (E := E) cur pc pcc sy ms)) =
   ((dv u', dm Rc), mkCore (E := E) cur pc0 pcc0 sy ms) /\ ((pc0 = dv (0 : 'cV[R]_0) /\ u' = 0) \/ (pc0 = dv u' /\ pcc0 = dm Rc)).
  move=> _ ->; exists pc, pcc; split => //; case: hpc => -[e1 e2]; rewrite e1 /=; first by rewrite e2.
  by rewrite e2; case: Nat.ltb_spec => // h; rewrite (@cv0 _ (0 : 'cV[R]_m) u) //; lia.
case: hd => [[-> ->]|[d0 eu]] /=; last by rewrite d0 /=; apply: last.
case: Nat.ltb_spec => h; first by exists (dv u'), (dm Rc); split => //; right.
have m0 : m = 0%nat by lia.
have e0 : (0 <? projT1 pc)%nat = false by case: hpc => -[-> _] /=; [|rewrite m0].
rewrite e0; exists pc, pcc; split; first by rewrite (@cv0 _ (0 : 'cV[R]_m) u').
case: hpc => -[e1 e2]; [left|right]; split => //; first exact: cv0.
by rewrite e1 (@cv0 _ u u').
Qed.

(** a control input *)
Lemma told_control c now u ev u' (d : DV R) cv t mo c' : told c now u ev -> ((d = dv u' /\ cv = dm Rc) \/ (projT1 d = 0%nat /\ u' = u)) ->
  applyControlInput c (mkInput (E := E) d cv t true mo) = Ok c' ->
  f_ts (c_cur c') = now /\ forall t', told (set_ts c' t') t' u' (moved (tsub t now) u' :: ev).
Proof.
move=> ht hd; have [pc [pcc [ec hpc]]] := told_choose t mo ht hd.
case: ht => [[x [P [ex eP pP hf]]] et [hJ eRc] hM _].
rewrite /applyControlInput ec /control_update /= (td_check H hJ) /= ex eP !vec_of_dv !mat_of_dm /= et.
have [hJ1 e1] := td_setRc H Rc hJ.
rewrite /kf_predict; have [o [-> hJ2 eA eB [eG eV eRp e2]]] := td_upd H x u' (tsub t now) hJ1.
rewrite /= (td_add H hJ2) /add_default eA eB eG eV eRp e2 e1 => -[<-] /=; split => // t'.
split => //=; last by rewrite e2.
exists (A (tsub t now) *m x + B (tsub t now) *m u'), (A (tsub t now) *m P *m (A (tsub t now))^T + G (tsub t now) *m Rp (tsub t now) *m (G (tsub t now))^T + V (tsub t now) *m Rc *m (V (tsub t now))^T).
have h1 := td_Rp H (tsub t now); have h2 := td_Rc H; split => //; last exact: fit_moved.
by apply: psdD; [apply: psdD|]; apply: psd_congr.
Qed.
Lemma told_prev c now u ev i : told c now u ev -> told (set_prev c i) now u ev.
Proof. by case. Qed.

(** the covariances of measurements are admissible, the timestamps finite *)
Definition fair (a : news) : Prop := fin (when a) /\ match a with Observed _ _ _ Q _ => psd Q | _ => True end.

Lemma told_news c now u ev a c' : fin now -> fair a -> tlt now (when a) = true -> told c now u ev ->
  input_core c (as_input a) = Ok c' ->
  exists u', told c' (when a) u' (meaning now u ev [:: a]) /\ forall l, meaning now u ev (a :: l) = meaning (when a) u' (meaning now u ev [:: a]) l.
Proof.
move=> fn [ft hq] lt ht; have [_ et _ _ _] := ht; rewrite /input_core.
have ets := et_add_sub _ _ Hx _ _ fn ft; have epos := et_sub_pos _ _ Hx _ _ fn ft.
case: a hq ft lt ets epos => [u' t|t|i k z Q t] /= hq ft lt ets epos e.
- case: (obind_ok _ _ _ e) => c1 [{}e [<-]]; case: (obind_ok _ _ _ e) => c2 [{}e [<-]].
  have [e1 h1] := told_control ht (or_introl (conj erefl erefl)) e; exists u'; split => //.
  by apply: told_prev; have := h1 t; rewrite et e1 ets.
- case: (obind_ok _ _ _ e) => c1 [{}e [<-]]; case: (obind_ok _ _ _ e) => c2 [{}e [<-]].
  have [e1 h1] := told_control ht (or_intror (conj erefl erefl) : (_ /\ _ \/ projT1 (dv (0 : 'cV[R]_0)) = 0%nat /\ u = u)) e; exists u; split => //.
  by apply: told_prev; have := h1 t; rewrite et e1 ets.
case: (obind_ok _ _ _ e) => c1 [{}e [<-]]; exists u; split => //; apply: told_prev.
move: e; rewrite /applyMeasurementInput /= et => e; case: (obind_ok _ _ _ e) => c2 [e2 {}e].
have h2 : told c2 t u (moved (tsub t now) u :: ev).
  move: e2; rewrite /advance_if_needed epos lt => e2; case: (obind_ok _ _ _ e2) => c3 [e3 [<-]].
  have hc : (c_pc c = dv u /\ c_pcc c = dm Rc) \/ (projT1 (c_pc c) = 0%nat /\ u = u) by case: ht => _ _ _ _ [[-> _]|[-> ->]]; [right|left].
  by have [e1 h1] := told_control ht hc e3; have := h1 t; rewrite e1 ets.
case: h2 => [[x [P [ex eP pP hf]]] et2 [hJ eRc] hM hpc].
move: e; case eq: (List.nth_error _ _) => [q|] // e.
have hq1 := hM _ _ eq; case: q eq hq1 e => kq q eq hq1 e.
case: (obind_ok _ _ _ e) => -[[[sy q2] y] W] [{}e [<-]].
move: e; rewrite /meas_update /= => e; case: (obind_ok _ _ _ e) => q3 [{}e3 {}e].
case: (obind_ok _ _ _ e3) => Q' [/mat_of_ok eQ [eq3]].
have := congr1 (@projT1 _ _) eQ => /= ek; subst kq; move/dm_inj: eQ => eQ; subst Q' q3.
have [hq2 eC] := tdm_setCov H Q hq1.
move: e; rewrite /= (tdm_check H hq2) /= ex eP vec_of_dv mat_of_dm /= vec_of_dv /= => e.
case: (obind_ok _ _ _ e) => -[[[sy1 q4] y4] W4] [{}e []] /= <- <- <- <-.
case: (obind_ok _ _ _ e) => -[[q5 y5] W5] [{}e []] /= <- <- <- <-.
move: e; rewrite /kf_correct; have [q6 [-> hq6 eC6 eQ6]] := tdm_upd H x (tsub t now) hq2.
cbn [obind]; rewrite eC6 eQ6 eC (tdm_sub H hq6) (td_add H hJ) /sub_default /add_default /inverse -/(innov P (C i k) Q).
case: ifP => // uS /= [<- <- <-]; rewrite -/(gain P (C i k) Q).
split => //=.
  exists (x + gain P (C i k) Q *m (z - C i k *m x)), ((1%:M - gain P (C i k) Q *m C i k) *m P); split => //.
    exact: post_psd.
  exact: fit_measured.
move=> j q7; rewrite nth_error_list_set; case: Nat.eqb_spec => [<-|_]; last exact: hM.
by rewrite eq => -[<-].
Qed.

Lemma told_all l c now u ev c' : fin now -> List.Forall fair l -> StronglySorted (fun a b => tlt (when a) (when b) = true) l ->
  List.Forall (fun a => tlt now (when a) = true) l -> told c now u ev ->
  ofold (@input_core TT E) (List.map as_input l) c = Ok c' -> exists now' u', told c' now' u' (meaning now u ev l).
Proof.
elim: l c now u ev => [|a l IH] c now u ev fn hf hs hn ht; first by case=> <-; exists now, u.
move=> e; cbn [ofold List.map] in e; case: (obind_ok _ _ _ e) => c1 [e1 {}e].
inversion hf as [|? ? fa fl]; inversion hn as [|? ? na nl]; inversion hs as [|? ? sl sa]; subst.
have [u1 [h1 h2]] := told_news fn fa na ht e1.
rewrite h2; exact: IH (proj1 fa) fl sl sa h1 e.
Qed.

(** the filter, given the news in time order *)
Definition tell (a : news) : Op (E := E) :=
  match a with
  | Control u t => OpPredictU (E := E) (dv u) t
  | Passed t => OpPredictT (E := E) t
  | Observed i k z Q t => OpCorrect (E := E) (dv z) (dm Q) t (Some i)
  end.
Variables (L : Lib E) (sy : sm S) (ms : list (DMeas F)).

Lemma told_new t0 : J sy -> sm_Rc sy = Rc -> psd P0 -> (forall i q, List.nth_error ms i = Some q -> MJ i (projT2 q)) ->
  told (core (new_filter (E := E) sy ms (dv x0) (dm P0) t0)) t0 0 [::].
Proof.
move=> hJ eR pP hM; split => //=; last by left.
by exists x0, P0; split => //; exact: fit_init.
Qed.

Lemma step_core (s : St E) a now : fin now -> fin (when a) -> getStateTime s = now -> tlt now (when a) = true ->
  (sm_Rc (c_sys (core s) : sm S) = Rc) ->
  forall s' : St E, (p_rewind (par s) = false /\ step L s (tell a) = Ok s') \/ (p_rewind (par s) = true /\ step L s (call_of (as_input a)) = Ok s') ->
  input_core (core s) (as_input a) = Ok (core s') /\ par s' = par s.
Proof.
move=> fn ft et lt eRc s' [] [hr e].
  have hgo i : (let* s1 := applyInput s i in pruneHistory L s1) = Ok s' -> input_core (core s) i = Ok (core s') /\ par s' = par s.
    move=> e'; case: (obind_ok _ _ _ e') => s1 [e1 e2]; case: (applyInput_ok _ _ _ e1) => c [ec es].
    by move: e2; rewrite /pruneHistory es /= hr /= => -[<-] /=.
  case: a ft lt e => [u t|t|i k z Q t] /= ft lt.
  - rewrite /predict_u hr /= et (tlt_le Hx _ _ fn ft lt) eRc; exact: hgo.
  - rewrite /predict_t et lt /= eRc; exact: hgo.
  - rewrite /correct hr /= et (et_sub_nonneg _ _ Hx) // (tlt_le Hx _ _ fn ft lt) orbT; exact: hgo.
have hgo i : i_ts i = when a -> apply_late L s i = Ok s' -> input_core (core s) i = Ok (core s') /\ par s' = par s.
  move=> ei; rewrite /apply_late ei et (tlt_asym Hx _ _ fn ft lt) /= => e'.
  have [e1 [e2 _]] := applyBatchInputs_core _ _ _ _ e'; split => //.
  by move: e1; cbn [ofold]; case: (input_core _ _) => [c|] //= [->].
case: a ft lt e hgo => [u t|t|i k z Q t] /= ft lt e hgo.
- by apply: hgo => //; move: e; rewrite /call_of /= /predict_u hr /= eRc.
- by apply: hgo => //; move: e; rewrite /call_of /= /predict_u hr /= eRc.
- by apply: hgo => //; move: e; rewrite /call_of /= /correct hr /=.
Qed.

Lemma run_told (f : news -> Op (E := E)) (b : bool) l (s s' : St E) now u ev : (forall a, if b then f a = call_of (as_input a) else f a = tell a) ->
  p_rewind (par s) = b -> fin now -> List.Forall fair l -> StronglySorted (fun a b => tlt (when a) (when b) = true) l ->
  List.Forall (fun a => tlt now (when a) = true) l -> told (core s) now u ev ->
  run L (List.map f l) s = Ok s' -> exists now' u', told (core s') now' u' (meaning now u ev l).
Proof.
move=> hb; elim: l s now u ev => [|a l IH] s now u ev hp fn hf hs hn ht; first by case=> <-; exists now, u.
rewrite /run; move=> e; cbn [ofold List.map] in e; case: (obind_ok _ _ _ e) => s1 [e1 {}e].
inversion hf as [|? ? fa fl]; inversion hn as [|? ? na nl]; inversion hs as [|? ? sl sa]; subst.
have [_ et [_ eRc] _ _] := ht.
have [ec ep] : input_core (core s) (as_input a) = Ok (core s1) /\ par s1 = par s.
  apply: (step_core fn (proj1 fa) et na eRc); move: (hb a) e1.
  by case: (p_rewind (par s)) => -> e1; [right|left].
have [u1 [h1 h2]] := told_news fn fa na ht ec.
by rewrite h2; apply: IH e => //; [rewrite ep|exact: (proj1 fa)].
Qed.

Definition estimates_fit (s : St E) (ev : seq (event R n m p)) : Prop :=
  exists x P, [/\ getState s = dv x, getCovariance s = dm P, psd P & fit x0 P0 ev x P].

(** the news in time order, to a filter without rewinding *)
Theorem C97_in_order t0 l s : J sy -> sm_Rc sy = Rc -> psd P0 -> (forall i q, List.nth_error ms i = Some q -> MJ i (projT2 q)) ->
  fin t0 -> List.Forall fair l -> StronglySorted (fun a b => tlt (when a) (when b) = true) l -> List.Forall (fun a => tlt t0 (when a) = true) l ->
  run L (List.map tell l) (new_filter (E := E) sy ms (dv x0) (dm P0) t0) = Ok s ->
  estimates_fit s (meaning t0 0 [::] l).
Proof.
move=> hJ eR pP hM ft hf hs hn hr.
have ht := told_new t0 hJ eR pP hM.
by have [now' [u' [h _ _ _ _]]] := run_told (s := new_filter (E := E) sy ms (dv x0) (dm P0) t0) (f := tell) (b := false) (fun a => erefl) erefl ft hf hs hn ht hr.
Qed.

(** objects of the timed models have no memory *)
Let SL (o : Sys E) : Prop := J o /\ sm_Rc (o : sm S) = Rc.
Let ML (i : nat) (q : Meas E) : Prop := MJ i (projT2 q) /\ exists q0, List.nth_error ms i = Some q0 /\ projT1 q = projT1 q0.
Lemma timed_memoryless : J sy -> sm_Rc sy = Rc -> (forall i q, List.nth_error ms i = Some q -> MJ i (projT2 q)) ->
  Memoryless E sy ms SL ML.
Proof.
move=> hJ eR hM; split => //=.
- by move=> i q e; split; [exact: hM|exists q].
- by move=> o [_ ->]; rewrite eR.
- move=> o v W d u dt [hJo eo]; rewrite /control_update /= (td_check H hJo) (td_check H hJ) /= mat_of_dm /=.
  case: (vec_of n v) => [x|] //=; case: (mat_of n W) => [P|] //=; case: (vec_of m u) => [w|] //=.
  have [h1 e1] := td_setRc H (sm_Rc sy) hJo; have [h2 e2] := td_setRc H (sm_Rc sy) hJ.
  rewrite /kf_predict; have [o1 [-> j1 a1 b1 [c1 d1 f1 g1]]] := td_upd H x w dt h1; have [o2 [-> j2 a2 b2 [c2 d2 f2 g2]]] := td_upd H x w dt h2.
  rewrite /= (td_add H j1) (td_add H j2) a1 a2 b1 b2 c1 c2 d1 d2 f1 f2 g1 g2 e1 e2; split => //.
  by split => //; rewrite g1 e1.
- move=> o i [k q] [k0 q0] v W z Q dt [hJo eo] [/= hq [q1 [eq1 ek]]] eq0.
  move: eq1; rewrite [List.nth_error _ _]eq0 => -[eqq]; subst q1; rewrite /= in ek; subst k0; have hq0 := hM _ _ eq0.
  rewrite /meas_update /=; case: (mat_of k Q) => [Q'|] //=.
  have [h1 e1] := tdm_setCov H Q' hq; have [h2 e2] := tdm_setCov H Q' hq0.
  rewrite (tdm_check H h1) (tdm_check H h2) /=.
  case: (vec_of n v) => [x|] //=; case: (mat_of n W) => [P|] //=; case: (vec_of k z) => [w|] //=.
  rewrite /kf_correct; have [q3 [-> j1 a1 b1]] := tdm_upd H x dt h1; have [q4 [-> j2 a2 b2]] := tdm_upd H x dt h2.
  cbn [obind]; rewrite a1 a2 b1 b2 e1 e2 (tdm_sub H j1) (tdm_sub H j2) (td_add H hJo) (td_add H hJ).
  rewrite /inverse; case: ifP => // _ /=; split => //; split; first by split.
  by split => //; exists (existT _ k q0).
Qed.

(** any order, any mixture of direct calls and queues, on a filter with rewinding (within the restrictions of C11) *)
Theorem C97_any_order t0 w past ops l s : lib_strict L = false -> SortOk L ->
  J sy -> sm_Rc sy = Rc -> psd P0 -> (forall i q, List.nth_error ms i = Some q -> MJ i (projT2 q)) ->
  fin t0 -> fin w -> tle (tsub t0 w) t0 = true ->
  all_allowed (E := E) (dm Rc) (mkDel [::] [::]) ops ->
  List.NoDup (timestamps ops) -> List.Forall (in_window (fin := fin) t0 w) (timestamps ops) ->
  Permutation (List.map as_input l) (processed (delivered (E := E) (dm Rc) ops)) ->
  List.Forall fair l -> StronglySorted (fun a b => tlt (when a) (when b) = true) l -> List.Forall (fun a => tlt t0 (when a) = true) l ->
  run L (rewinding w past ops) (new_filter (E := E) sy ms (dv x0) (dm P0) t0) = Ok s ->
  estimates_fit s (meaning t0 0 [::] l).
Proof.
move=> hL hS hJ eR pP hM ft fw hw ha hnd hwin hp hf hs hn hr.
have hso : in_time_order (List.map as_input l).
  rewrite /in_time_order; elim: hs => [|a l' _ IH h] /=; constructor => //.
  have ets b : i_ts (as_input b) = when b by case: b.
  by apply/List.Forall_map; apply: List.Forall_impl h => b; rewrite !ets.
have eR' : s_Rc (sy : Sys E) = dm Rc by rewrite /= eR.
have HH := C11_late_mixed_partial L hL hS Hx (sy : Sys E) ms SL ML (timed_memoryless hJ eR hM) erefl (dv x0) (dm P0) t0 w past ft fw hw ops (List.map as_input l) s.
rewrite eR' in HH; have [s' [e1 e2]] := HH ha hnd hwin hp hso hr.
move: e1; rewrite run_rewinding List.map_map => e1.
have ht := told_new t0 hJ eR pP hM.
have [now' [u' [h _ _ _ _]]] := run_told (s := mkSt (mkParams true w past) (core (new_filter (E := E) sy ms (dv x0) (dm P0) t0)) [::] [::] [::]) (f := fun a => call_of (as_input a)) (b := true) (fun a => erefl) erefl ft hf hs hn ht e1.
by move: e2 h; rewrite /est /estimates_fit /getState /getCovariance => -[-> -> _].
Qed.

(** C96 for runs: if the news is exact for some motion that started at x0, the estimate is its state *)
Lemma meaning_admissible l : List.Forall fair l -> forall now u ev, List.Forall (@admissible R n m p) ev -> List.Forall (@admissible R n m p) (meaning now u ev l).
Proof.
move=> hl; elim: hl => [|a l' ha _ IH] now u ev hev //.
have hm dt v : admissible (moved dt v) by split; [exact: (td_Rp H)|exact: (td_Rc H)].
by case: a ha => [u' t|t|i k z Q t] [_ hq] /=; apply: IH; do !apply: List.Forall_cons.
Qed.
Theorem C96_in_order t0 l s y : J sy -> sm_Rc sy = Rc -> psd P0 -> (forall i q, List.nth_error ms i = Some q -> MJ i (projT2 q)) ->
  fin t0 -> List.Forall fair l -> StronglySorted (fun a b => tlt (when a) (when b) = true) l -> List.Forall (fun a => tlt t0 (when a) = true) l ->
  exact x0 (meaning t0 0 [::] l) y ->
  run L (List.map tell l) (new_filter (E := E) sy ms (dv x0) (dm P0) t0) = Ok s ->
  getState s = dv y.
Proof.
move=> hJ eR pP hM ft hf hs hn he hr; have [x [P [-> _ hP h]]] := C97_in_order hJ eR pP hM ft hf hs hn hr.
by rewrite (C96_exact_data pP _ hP h he) //; apply: meaning_admissible.
Qed.
Theorem C96_any_order t0 w past ops l s y : lib_strict L = false -> SortOk L ->
  J sy -> sm_Rc sy = Rc -> psd P0 -> (forall i q, List.nth_error ms i = Some q -> MJ i (projT2 q)) ->
  fin t0 -> fin w -> tle (tsub t0 w) t0 = true ->
  all_allowed (E := E) (dm Rc) (mkDel [::] [::]) ops ->
  List.NoDup (timestamps ops) -> List.Forall (in_window (fin := fin) t0 w) (timestamps ops) ->
  Permutation (List.map as_input l) (processed (delivered (E := E) (dm Rc) ops)) ->
  List.Forall fair l -> StronglySorted (fun a b => tlt (when a) (when b) = true) l -> List.Forall (fun a => tlt t0 (when a) = true) l ->
  exact x0 (meaning t0 0 [::] l) y ->
  run L (rewinding w past ops) (new_filter (E := E) sy ms (dv x0) (dm P0) t0) = Ok s ->
  getState s = dv y.
Proof.
move=> hL hS hJ eR pP hM ft fw hw ha hnd hwin hp hf hs hn he hr.
have [x [P [-> _ hP h]]] := C97_any_order hL hS hJ eR pP hM ft fw hw ha hnd hwin hp hf hs hn hr.
by rewrite (C96_exact_data pP _ hP h he) //; apply: meaning_admissible.
Qed.
End Filter.

Theorem C97_minimises (R : realFieldType) (n m p : nat) (x0 : 'cV[R]_n) (P0 : 'M[R]_n) (ev : seq (event R n m p)) (x : 'cV[R]_n) (P : 'M[R]_n) :
  psd P -> fit x0 P0 ev x P ->
  exists c, explains x0 P0 ev x c /\ forall y d, explains x0 P0 ev y d -> c <= d /\ (d = c -> y = x).
Proof. exact: fit_min. Qed.

(** ** Witness: the run of C43, and a late control *)
Section Witness.
Variable R : realFieldType.
Let O := @w_ops R.
Let MO := @w_mops R.
Let F := kf_alg O MO.
Let A : 'M[R]_2 := (block_mx 1%:M 1%:M 0 1%:M : 'M_(1 + 1)).
Let V : 'M[R]_(2, 1) := (col_mx 0 1%:M : 'M_(1 + 1, 1)).
Example C97_nonvacuous_models :
  timed O MO (fun _ => A) (fun _ => V) (fun _ => 1%:M) (fun _ => V) (fun _ => 1%:M) 1%:M (fun _ k => \matrix_(i, j) ((i == j :> nat)%:R)) (fun _ => True) (fun _ _ _ => True).
Proof.
split => //=.
- by move=> o x u dt _; exists o.
- by move=> _; apply: pd_psd; exact: pd1.
- by apply: pd_psd; exact: pd1.
- by move=> i k q x dt _; exists q.
Qed.
Example C97_nonvacuous_run (x : 'cV[R]_2) (u z : 'cV[R]_1) :
  exists s, run (w_lib R) (List.map (@tell R ZTime 2 1 2 _ O _ MO) [:: Control u (zt 1); Observed 1 0 z (1%:M : 'M[R]_1) (zt 3)])
      (new_filter (E := alg_env F) (1%:M : 'M[R]_1) [:: existT (fun k => mm (w_fam R k)) 1%nat (1%:M : 'M[R]_1)] (dv x) (dm (1%:M : 'M[R]_2)) (zt 0)) = Ok s /\
    estimates_fit x 1%:M s [:: @Measured R 2 1 2 1 (\matrix_(i, j) ((i == j :> nat)%:R)) z 1%:M; Moved A (V *m u) 1%:M 1%:M V 1%:M; Moved A (V *m u) 1%:M 1%:M V 1%:M].
Proof.
have p1 a : psd (1%:M : 'M[R]_a) by apply: pd_psd; exact: pd1.
have [s hs] := C43_nonvacuous_run x u z; exists s; split => //.
apply: (C97_in_order ZTime_exact C97_nonvacuous_models (t0 := zt 0) (l := [:: Control u (zt 1); Observed 1 0 z (1%:M : 'M[R]_1) (zt 3)]) _ _ _ _ _ _ _ _ hs) => //.
- by exists 0%Z.
- by apply: List.Forall_cons; [split => //; exists 1%Z|apply: List.Forall_cons; [split => //; exists 3%Z|exact: List.Forall_nil]].
- by do !constructor.
- by do !constructor.
Qed.
(** a control that arrives late *)
Example C97_nonvacuous_late (x : 'cV[R]_2) (u u' : 'cV[R]_1) :
  exists s, run (gnu_lib (alg_env F)) (rewinding (zt 10) false [:: OpPredictU (E := alg_env F) (dv u) (zt 3); OpPredictU (E := alg_env F) (dv u') (zt 1)])
      (new_filter (E := alg_env F) (1%:M : 'M[R]_1) [::] (dv x) (dm (1%:M : 'M[R]_2)) (zt 0)) = Ok s /\
    estimates_fit x 1%:M s [:: Moved A (V *m u) 1%:M 1%:M V 1%:M; Moved A (V *m u') 1%:M 1%:M V 1%:M].
Proof.
have p1 a : psd (1%:M : 'M[R]_a) by apply: pd_psd; exact: pd1.
have [s hs] : exists s, run (gnu_lib (alg_env F)) (rewinding (zt 10) false [:: OpPredictU (E := alg_env F) (dv u) (zt 3); OpPredictU (E := alg_env F) (dv u') (zt 1)])
      (new_filter (E := alg_env F) (1%:M : 'M[R]_1) [::] (dv x) (dm (1%:M : 'M[R]_2)) (zt 0)) = Ok s.
  rewrite /run /rewinding /= /predict_u /= /apply_late /= /applyBatchInputs /= /applyInput /= /input_core /applyControlInput /choose_control /control_update /= mat_of_dm /= vec_of_dv /= mat_of_dm vec_of_dv /=.
  rewrite /predict_u /= /apply_late /= /rewindHistory /= /applyBatchInputs /= /applyInput /= /input_core /applyControlInput /choose_control /control_update /= !mat_of_dm /= !vec_of_dv /= !mat_of_dm /= !vec_of_dv /=.
  by eexists.
exists s; split => //.
apply: (C97_any_order ZTime_exact C97_nonvacuous_models (t0 := zt 0) (l := [:: Control u' (zt 1); Control u (zt 3)]) _ _ _ _ _ _ _ _ _ _ _ _ _ _ _ _ hs) => //=.
- exact: gnu_sort_ok.
- by exists 0%Z.
- by exists 10%Z.
- by split; [|split => //]; left; split => //=; exact/ltP.
- by do !constructor => //; case.
- by apply: List.Forall_cons; [|apply: List.Forall_cons; [|exact: List.Forall_nil]]; split => //; [exists 3%Z|exists 1%Z].
- exact: perm_swap.
- by apply: List.Forall_cons; [|apply: List.Forall_cons; [|exact: List.Forall_nil]]; split => //; [exists 1%Z|exists 3%Z].
- by do !constructor.
- by do !constructor.
Qed.
(** exact data for C96: one second of free motion, then the true position and velocity are measured *)
Example C96_nonvacuous (x : 'cV[R]_2) :
  exact x [:: @Measured R 2 1 2 2 1%:M (A *m x) 1%:M; Moved A 0 1%:M 1%:M V 1%:M] (A *m x).
Proof. by split; [exists x; rewrite addr0|rewrite mul1mx]. Qed.
End Witness.
