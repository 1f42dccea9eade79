(** C73 and C80: the ellipse functions of plotting_utilities.cpp. *)
From Coq Require Import Reals Lra Psatz List ZArith Lia.
From Verif Require Import Outcome Angles Props_Angles Plot.
Import ListNotations.
Open Scope R_scope.

(** ** specification *)
(** the point is on the ellipse around offset with semi-axes a, b, the first one turned by angle *)
Definition on_ellipse (a b : R) (offset : P2) (angle : R) (p : P2) : Prop :=
  let dx := px p - px offset in
  let dy := py p - py offset in
  let u := cos angle * dx + sin angle * dy in
  let v := - sin angle * dx + cos angle * dy in
  (u / a) * (u / a) + (v / b) * (v / b) = 1.
(** the squared Mahalanobis distance d^T cov^-1 d, for a symmetric cov, by the 2x2 inverse *)
Definition mahalanobis2 (cov : M2) (offset p : P2) : R :=
  let dx := px p - px offset in
  let dy := py p - py offset in
  (m11 cov * (dx * dx) - 2 * m10 cov * (dx * dy) + m00 cov * (dy * dy)) / (m00 cov * m11 cov - m10 cov * m10 cov).
(** symmetric positive definite *)
Definition cov2 (A : M2) : Prop := m01 A = m10 A /\ 0 < m00 A /\ 0 < m00 A * m11 A - m10 A * m10 A.
(** the product A A *)
Definition sq2 (A : M2) : M2 :=
  mkM2 (m00 A * m00 A + m01 A * m10 A) (m00 A * m01 A + m01 A * m11 A) (m10 A * m00 A + m11 A * m10 A) (m10 A * m01 A + m11 A * m11 A).

(** ** C80: getEllipsePoints *)
Lemma sc2 t : cos t * cos t + sin t * sin t = 1.
Proof. pose proof (sin2_cos2 t). unfold Rsqr in *. lra. Qed.
Theorem C80_on_ellipse (a b angle : R) (offset : P2) (n : nat) : a <> 0 -> b <> 0 -> (Z.of_nat n < 2 ^ 31)%Z ->
  exists pts, getEllipsePoints a b offset angle n = Ok pts /\ length pts = n /\ forall p, In p pts -> on_ellipse a b offset angle p.
Proof.
  intros Ha Hb Hn. unfold getEllipsePoints. apply Z.ltb_lt in Hn. rewrite Hn. eexists. split; [reflexivity|]. rewrite map_length, seq_length. split; [reflexivity|].
  intros p Hp. apply in_map_iff in Hp. destruct Hp as (i & <- & _). unfold on_ellipse, ellipse_point, padd, rot2. cbn [px py].
  set (t := INR i * 2 * PI / INR n). set (X := a * cos t). set (Y := b * sin t). pose proof (sc2 angle) as S. pose proof (sc2 t) as T.
  assert (cos angle * (cos angle * X - sin angle * Y + px offset - px offset) + sin angle * (sin angle * X + cos angle * Y + py offset - py offset) = X) as ->.
  { transitivity (X * (cos angle * cos angle + sin angle * sin angle)); [ring|]. rewrite S. ring. }
  assert (- sin angle * (cos angle * X - sin angle * Y + px offset - px offset) + cos angle * (sin angle * X + cos angle * Y + py offset - py offset) = Y) as ->.
  { transitivity (Y * (cos angle * cos angle + sin angle * sin angle)); [ring|]. rewrite S. ring. }
  unfold X, Y. rewrite <- T. field. auto.
Qed.
Lemma NoDup_map_in {A B : Type} (f : A -> B) l : (forall x y, In x l -> In y l -> f x = f y -> x = y) -> NoDup l -> NoDup (map f l).
Proof.
  induction l as [|a l IH]; intros H N; cbn; [constructor|]. inversion N; subst. constructor.
  - intros K. apply in_map_iff in K. destruct K as (b & E & Hb). apply H in E; [subst; contradiction|right; exact Hb|left; reflexivity].
  - apply IH; [|assumption]. intros x y Hx Hy. apply H; right; assumption.
Qed.
(** the i-th point has the parameter i/n of a turn; they are all different, and start at the first axis *)
Theorem C80_points (a b angle : R) (offset : P2) (n i : nat) : a <> 0 -> b <> 0 -> (Z.of_nat n < 2 ^ 31)%Z -> (i < n)%nat ->
  exists pts, getEllipsePoints a b offset angle n = Ok pts /\ NoDup pts /\
    nth_error pts i = Some (padd (rot2 angle (mkP (a * cos (2 * PI * (INR i / INR n))) (b * sin (2 * PI * (INR i / INR n))))) offset).
Proof.
  intros Ha Hb Hn Hi. unfold getEllipsePoints. apply Z.ltb_lt in Hn. rewrite Hn. eexists. split; [reflexivity|].
  assert (0 < INR n) as Pn by (apply lt_0_INR; lia). assert (forall k, INR k * 2 * PI / INR n = 2 * PI * (INR k / INR n)) as E by (intros; field; lra). split.
  - apply NoDup_map_in; [|apply seq_NoDup]. intros j k Hj Hk H. apply in_seq in Hj. apply in_seq in Hk.
    unfold ellipse_point, padd, rot2 in H. cbn [px py] in H. rewrite !E in H. set (s := 2 * PI * (INR j / INR n)) in *. set (t := 2 * PI * (INR k / INR n)) in *.
    injection H as H1 H2. pose proof (sc2 angle) as S.
    assert (cos s = cos t) as C.
    { apply (Rmult_eq_reg_l a); [|exact Ha].
      transitivity (cos angle * (cos angle * (a * cos s) - sin angle * (b * sin s)) + sin angle * (sin angle * (a * cos s) + cos angle * (b * sin s))).
      { transitivity (a * cos s * (cos angle * cos angle + sin angle * sin angle)); [rewrite S; ring|ring]. }
      transitivity (cos angle * (cos angle * (a * cos t) - sin angle * (b * sin t)) + sin angle * (sin angle * (a * cos t) + cos angle * (b * sin t))).
      { f_equal; f_equal; lra. }
      transitivity (a * cos t * (cos angle * cos angle + sin angle * sin angle)); [ring|rewrite S; ring]. }
    assert (sin s = sin t) as D.
    { apply (Rmult_eq_reg_l b); [|exact Hb].
      transitivity (- sin angle * (cos angle * (a * cos s) - sin angle * (b * sin s)) + cos angle * (sin angle * (a * cos s) + cos angle * (b * sin s))).
      { transitivity (b * sin s * (cos angle * cos angle + sin angle * sin angle)); [rewrite S; ring|ring]. }
      transitivity (- sin angle * (cos angle * (a * cos t) - sin angle * (b * sin t)) + cos angle * (sin angle * (a * cos t) + cos angle * (b * sin t))).
      { f_equal; f_equal; lra. }
      transitivity (b * sin t * (cos angle * cos angle + sin angle * sin angle)); [ring|rewrite S; ring]. }
    assert (forall m, (m < n)%nat -> 0 <= 2 * PI * (INR m / INR n) < 2 * PI) as B.
    { intros m Hm. pose proof PI_RGT_0. pose proof (pos_INR m). assert (INR m < INR n) by (apply lt_INR; exact Hm). assert (0 <= INR m / INR n < 1).
      { split; [unfold Rdiv; apply Rmult_le_pos; [lra|left; apply Rinv_0_lt_compat; lra]|apply (Rmult_lt_reg_r (INR n)); [lra|]; unfold Rdiv; rewrite Rmult_assoc, Rinv_l by lra; lra]. }
      nra. }
    destruct (B j ltac:(lia)) as [Bj1 Bj2]. destruct (B k ltac:(lia)) as [Bk1 Bk2]. fold s in Bj1, Bj2. fold t in Bk1, Bk2.
    assert (congruent s t) as (z & Hz).
    { pose proof (atan2_congruent (cos s) (sin s) 1 s ltac:(lra) ltac:(ring) ltac:(ring)) as C1.
      pose proof (atan2_congruent (cos s) (sin s) 1 t ltac:(lra) ltac:(lra) ltac:(lra)) as C2.
      exact (congruent_trans _ _ _ (congruent_sym _ _ C1) C2). }
    assert (z = 0)%Z as ->.
    { pose proof PI_RGT_0. assert (-1 < IZR z < 1) as [L U] by (split; nra). apply lt_IZR in L. apply lt_IZR in U. lia. }
    assert (s = t) as Est by lra. unfold s, t in Est. pose proof PI_RGT_0.
    apply (Rmult_eq_reg_l (2 * PI)) in Est; [|lra]. unfold Rdiv in Est. apply Rmult_eq_reg_r in Est; [|apply Rinv_neq_0_compat; lra]. apply INR_eq, Est.
  - rewrite nth_error_map. rewrite (nth_error_nth' _ O) by (rewrite seq_length; exact Hi). rewrite seq_nth by exact Hi. cbn [option_map]. unfold ellipse_point. cbn [Nat.add]. rewrite E. reflexivity.
Qed.

Theorem C80_too_many (a b angle : R) (offset : P2) (n : nat) : (2 ^ 31 <= Z.of_nat n)%Z -> getEllipsePoints a b offset angle n = Ub ub_overflow.
Proof. intros H. unfold getEllipsePoints. destruct (Z.ltb_spec (Z.of_nat n) (2 ^ 31)); [lia|reflexivity]. Qed.
Example C80_nonvacuous : on_ellipse 2 3 (mkP 1 1) 0 (mkP 3 1).
Proof. unfold on_ellipse. cbn [px py]. rewrite cos_0, sin_0. field. Qed.

(** ** C73 *)
Definition C73_claim : Prop := forall cov offset n, cov2 cov -> (Z.of_nat n < 2 ^ 31)%Z ->
  forall pts, get2DCovarianceEllipsePoints_returns cov offset n (Ok pts) -> forall p, In p pts -> mahalanobis2 cov offset p = 1.
(** diag(4, 4): every point is at distance 2 *)
Theorem C73_refuted : ~ C73_claim.
Proof.
  intros H. specialize (H (mkM2 4 0 0 4) (mkP 0 0) 1%nat). unfold cov2 in H. cbn [m00 m01 m10 m11] in H.
  specialize (H ltac:(lra) ltac:(reflexivity) [mkP 4 0]). specialize (H).
  assert (get2DCovarianceEllipsePoints_returns (mkM2 4 0 0 4) (mkP 0 0) 1 (Ok [mkP 4 0])) as K.
  { exists (mkM2 1 0 0 1), 4, 4. split; [unfold solver2; cbn [m00 m01 m10 m11]; lra|]. cbn [m10 m00].
    unfold getEllipsePoints. cbn [Z.of_nat Z.ltb seq map Pos.of_succ_nat]. change (1 <? 2 ^ 31)%Z with true. cbv iota. f_equal. f_equal.
    unfold ellipse_point, padd, rot2. cbn [px py INR]. unfold atan2. destruct (Rlt_dec 0 1); [|lra].
    replace (0 / 1) with 0 by field. rewrite atan_0. replace (0 * 2 * PI / 1) with 0 by field. rewrite cos_0, sin_0. f_equal; ring. }
  specialize (H K (mkP 4 0) (or_introl eq_refl)). unfold mahalanobis2 in H. cbn [px py m00 m10 m11] in H. lra.
Qed.

(** the call always returns: a solution of the eigenvalue problem exists for every symmetric matrix *)
Lemma unit_pair x y : 0 < x * x + y * y -> let r := sqrt (x * x + y * y) in (x / r) * (x / r) + (y / r) * (y / r) = 1 /\ 0 < r /\ r * r = x * x + y * y.
Proof.
  intros H r. assert (0 < r) by (apply sqrt_lt_R0, H). assert (r * r = x * x + y * y) as E by (apply sqrt_sqrt; lra). split; [|auto].
  replace (x / r * (x / r) + y / r * (y / r)) with ((x * x + y * y) / (r * r)) by (field; lra). rewrite E. field. lra.
Qed.
Lemma solver2_total A : exists V l0 l1, solver2 A V l0 l1.
Proof.
  destruct A as [a b' b d]. unfold solver2. cbn [m00 m01 m10 m11]. destruct (Req_dec b 0) as [->|Hb].
  - destruct (Rle_dec a d).
    + exists (mkM2 1 0 0 1), a, d. cbn [m00 m01 m10 m11]. lra.
    + exists (mkM2 0 1 1 0), d, a. cbn [m00 m01 m10 m11]. lra.
  - set (s := sqrt ((a - d) * (a - d) + 4 * (b * b))). assert (0 < b * b) by nra. assert (0 <= s) by apply sqrt_pos.
    assert (s * s = (a - d) * (a - d) + 4 * (b * b)) as Hs by (apply sqrt_sqrt; pose proof (Rle_0_sqr (a - d)) as Q; unfold Rsqr in Q; lra).
    set (l0 := (a + d - s) / 2). set (l1 := (a + d + s) / 2).
    assert (0 < b * b + (l0 - a) * (l0 - a)) as P by (pose proof (Rle_0_sqr (l0 - a)) as Q; unfold Rsqr in Q; lra). destruct (unit_pair b (l0 - a) P) as (U & Pr & Er). set (r := sqrt (b * b + (l0 - a) * (l0 - a))) in *.
    exists (mkM2 (b / r) (- ((l0 - a) / r)) ((l0 - a) / r) (b / r)), l0, l1. cbn [m00 m01 m10 m11].
    assert (b * b = (l0 - a) * (l0 - d)) as Ch by (transitivity ((s * s - (a - d) * (a - d)) / 4); [lra|unfold l0; field]). assert (l1 = a + d - l0) as El1 by (unfold l0, l1; lra).
    split; [|split; [|unfold l0, l1; lra]].
    + split; [exact U|]. split; [rewrite <- U|]; field; lra.
    + assert (forall x y : R, l0 * (x / r * (y / r)) = l0 * (x * y) / (r * r)) as F1 by (intros; field; lra).
      assert (r * r <> 0) by nra. split; [|split].
      * transitivity (a * (r * r) / (r * r)); [field; lra|]. replace (l0 * (b / r * (b / r)) + l1 * (- ((l0 - a) / r) * - ((l0 - a) / r))) with ((l0 * (b * b) + l1 * ((l0 - a) * (l0 - a))) / (r * r)) by (field; lra).
        f_equal. rewrite Er, El1, Ch. ring.
      * transitivity (b * (r * r) / (r * r)); [field; lra|]. replace (l0 * ((l0 - a) / r * (b / r)) + l1 * (b / r * - ((l0 - a) / r))) with (b * ((l0 - a) * (l0 - l1)) / (r * r)) by (field; lra).
        f_equal. f_equal. rewrite Er, El1, Ch. ring.
      * transitivity (d * (r * r) / (r * r)); [field; lra|]. replace (l0 * ((l0 - a) / r * ((l0 - a) / r)) + l1 * (b / r * (b / r))) with ((l0 * ((l0 - a) * (l0 - a)) + l1 * (b * b)) / (r * r)) by (field; lra).
        f_equal. rewrite Er, El1, Ch. ring.
Qed.
Theorem C73_returns cov offset n : (Z.of_nat n < 2 ^ 31)%Z -> exists pts, get2DCovarianceEllipsePoints_returns cov offset n (Ok pts) /\ length pts = n.
Proof.
  intros Hn. destruct (solver2_total cov) as (V & l0 & l1 & S). unfold get2DCovarianceEllipsePoints_returns, getEllipsePoints. apply Z.ltb_lt in Hn.
  eexists. split; [exists V, l0, l1; split; [exact S|]; cbv zeta; rewrite Hn; reflexivity|]. rewrite map_length, seq_length. reflexivity.
Qed.
(** the second eigenvector is the first one turned by a quarter, one way or the other *)
Lemma second_vector a b c d : a * a + b * b = 1 -> c * c + d * d = 1 -> a * c + b * d = 0 -> exists e, e * e = 1 /\ c = - e * b /\ d = e * a.
Proof.
  intros H1 H2 H3. exists (a * d - b * c).
  assert (c = - (a * d - b * c) * b) as E1. { transitivity (c * (a * a + b * b)); [rewrite H1; ring|]. transitivity (a * (a * c + b * d) - (a * d - b * c) * b); [ring|rewrite H3; ring]. }
  assert (d = (a * d - b * c) * a) as E2. { transitivity (d * (a * a + b * b)); [rewrite H1; ring|]. transitivity (b * (a * c + b * d) + (a * d - b * c) * a); [ring|rewrite H3; ring]. }
  split; [|split; assumption].
  transitivity ((a * a + b * b) * (c * c + d * d) - (a * c + b * d) * (a * c + b * d)); [ring|rewrite H1, H2, H3; ring].
Qed.
(** every point, in terms of the eigenvalues *)
Lemma point_distance cov V l0 l1 offset n i : cov2 cov -> solver2 cov V l0 l1 ->
  let p := ellipse_point l0 l1 offset (atan2 (m10 V) (m00 V)) n i in
  let t := INR i * 2 * PI / INR n in
  0 < l0 /\ l0 <= l1 /\ l0 + l1 = m00 cov + m11 cov /\ l0 * l1 = m00 cov * m11 cov - m10 cov * m10 cov
  /\ mahalanobis2 cov offset p = l0 * (cos t * cos t) + l1 * (sin t * sin t) /\ mahalanobis2 (sq2 cov) offset p = 1.
Proof.
  intros (Sy & P0 & Pd) ((U0 & U1 & O) & (A0 & A1 & A2) & L) p t. unfold p. clear p.
  destruct (second_vector _ _ _ _ U0 U1 O) as (e & Ee & V01 & V11).
  assert (cos (atan2 (m10 V) (m00 V)) = m00 V /\ sin (atan2 (m10 V) (m00 V)) = m10 V) as (C & Sn).
  { destruct (atan2_spec (m00 V) (m10 V)) as (X & Y & _). rewrite U0, sqrt_1 in X, Y. lra. }
  assert (l0 + l1 = m00 cov + m11 cov) as Tr. { rewrite A0, A2. transitivity (l0 * (m00 V * m00 V + m10 V * m10 V) + l1 * (m01 V * m01 V + m11 V * m11 V)); [rewrite U0, U1; ring|ring]. }
  set (a := m00 V) in *. set (b := m10 V) in *. assert (m01 V * m01 V = b * b) as Q1 by (rewrite V01; transitivity (e * e * (b * b)); [ring|rewrite Ee; ring]).
  assert (m11 V * m11 V = a * a) as Q2 by (rewrite V11; transitivity (e * e * (a * a)); [ring|rewrite Ee; ring]).
  assert (m11 V * m01 V = - (a * b)) as Q3 by (rewrite V01, V11; transitivity (- (e * e) * (a * b)); [ring|rewrite Ee; ring]).
  rewrite Q1 in A0. rewrite Q3 in A1. rewrite Q2 in A2.
  assert (l0 * l1 = m00 cov * m11 cov - m10 cov * m10 cov) as De.
  { rewrite A0, A1, A2. transitivity (l0 * l1 * ((a * a + b * b) * (a * a + b * b))); [rewrite U0; ring|ring]. }
  assert (0 < l0) as Pl.
  { destruct (Rlt_dec 0 l0); [assumption|exfalso]. assert (0 < l0 * l1) by lra. assert (l1 < 0 \/ 0 <= l1) as [|] by lra; [|nra]. nra. }
  do 4 (split; [assumption|]). pose proof (sc2 t) as T.
  assert (m01 (sq2 cov) = m10 (sq2 cov)) by (unfold sq2; cbn [m01 m10]; rewrite Sy; ring).
  unfold mahalanobis2, ellipse_point, padd, rot2. cbn [px py]. rewrite C, Sn. fold a b t.
  set (X := l0 * cos t). set (Y := l1 * sin t).
  replace (a * X - b * Y + px offset - px offset) with (a * X - b * Y) by ring. replace (b * X + a * Y + py offset - py offset) with (b * X + a * Y) by ring. split.
  - rewrite <- De. assert (m11 cov * ((a * X - b * Y) * (a * X - b * Y)) - 2 * m10 cov * ((a * X - b * Y) * (b * X + a * Y)) + m00 cov * ((b * X + a * Y) * (b * X + a * Y)) = l1 * (X * X) + l0 * (Y * Y)) as ->.
    { rewrite A0, A1, A2. transitivity ((l1 * (X * X) + l0 * (Y * Y)) * ((a * a + b * b) * (a * a + b * b))); [ring|rewrite U0; ring]. }
    unfold X, Y. field. lra.
  - unfold sq2; cbn [m00 m01 m10 m11]. rewrite Sy.
    assert ((m00 cov * m00 cov + m10 cov * m10 cov) = l0 * l0 * (a * a) + l1 * l1 * (b * b)) as B0.
    { rewrite A0, A1. transitivity ((l0 * l0 * (a * a) + l1 * l1 * (b * b)) * (a * a + b * b)); [ring|rewrite U0; ring]. }
    assert ((m10 cov * m00 cov + m11 cov * m10 cov) = (l0 * l0 - l1 * l1) * (a * b)) as B1.
    { rewrite A0, A1, A2. transitivity ((l0 * l0 - l1 * l1) * (a * b) * (a * a + b * b)); [ring|rewrite U0; ring]. }
    assert ((m10 cov * m10 cov + m11 cov * m11 cov) = l0 * l0 * (b * b) + l1 * l1 * (a * a)) as B2.
    { rewrite A1, A2. transitivity ((l0 * l0 * (b * b) + l1 * l1 * (a * a)) * (a * a + b * b)); [ring|rewrite U0; ring]. }
    rewrite B0, B1, B2.
    assert ((l0 * l0 * (a * a) + l1 * l1 * (b * b)) * (l0 * l0 * (b * b) + l1 * l1 * (a * a)) - (l0 * l0 - l1 * l1) * (a * b) * ((l0 * l0 - l1 * l1) * (a * b)) = l0 * l0 * (l1 * l1)) as ->.
    { transitivity (l0 * l0 * (l1 * l1) * ((a * a + b * b) * (a * a + b * b))); [ring|rewrite U0; ring]. }
    assert ((l0 * l0 * (b * b) + l1 * l1 * (a * a)) * ((a * X - b * Y) * (a * X - b * Y)) - 2 * ((l0 * l0 - l1 * l1) * (a * b)) * ((a * X - b * Y) * (b * X + a * Y)) + (l0 * l0 * (a * a) + l1 * l1 * (b * b)) * ((b * X + a * Y) * (b * X + a * Y)) = l1 * l1 * (X * X) + l0 * l0 * (Y * Y)) as ->.
    { transitivity ((l1 * l1 * (X * X) + l0 * l0 * (Y * Y)) * ((a * a + b * b) * (a * a + b * b))); [ring|rewrite U0; ring]. }
    unfold X, Y. transitivity (cos t * cos t + sin t * sin t); [field; lra|exact T].
Qed.
(** what the function draws: the one-sigma ellipse of cov * cov; distances lie between the square roots of the
    eigenvalues of cov *)
Theorem C73_partial (cov : M2) (offset : P2) (n : nat) (pts : list P2) (p : P2) :
  cov2 cov -> get2DCovarianceEllipsePoints_returns cov offset n (Ok pts) -> In p pts ->
  mahalanobis2 (sq2 cov) offset p = 1 /\
  exists l0 l1, 0 < l0 /\ l0 + l1 = m00 cov + m11 cov /\ l0 * l1 = m00 cov * m11 cov - m10 cov * m10 cov /\ l0 <= mahalanobis2 cov offset p <= l1.
Proof.
  intros Hc (V & l0 & l1 & S & E) Hp. cbv zeta in E. unfold getEllipsePoints in E. destruct (Z.ltb _ _); [|discriminate]. injection E as ->.
  apply in_map_iff in Hp. destruct Hp as (i & <- & _). destruct (point_distance cov V l0 l1 offset n i Hc S) as (P & L & T & D & M & Q).
  split; [exact Q|]. exists l0, l1. do 3 (split; [assumption|]). rewrite M. set (t := INR i * 2 * PI / INR n). pose proof (sc2 t).
  pose proof (Rle_0_sqr (cos t)) as C. pose proof (Rle_0_sqr (sin t)) as S'. unfold Rsqr in *. nra.
Qed.
(** so the ellipse is right for the identity covariance *)
Theorem C73_identity_partial (offset : P2) (n : nat) (pts : list P2) (p : P2) :
  get2DCovarianceEllipsePoints_returns (mkM2 1 0 0 1) offset n (Ok pts) -> In p pts -> mahalanobis2 (mkM2 1 0 0 1) offset p = 1.
Proof.
  intros Hr Hp. assert (cov2 (mkM2 1 0 0 1)) as Hc by (unfold cov2; cbn [m00 m01 m10 m11]; lra).
  destruct (C73_partial _ _ _ _ _ Hc Hr Hp) as (M & _). unfold sq2 in M. cbn [m00 m01 m10 m11] in M. etransitivity; [|exact M]. f_equal. f_equal; ring.
Qed.
(** ... and for no other one, as soon as there are three points *)
Theorem C73_only_identity_partial (cov : M2) (offset : P2) (n : nat) (pts : list P2) :
  cov2 cov -> (3 <= n)%nat -> get2DCovarianceEllipsePoints_returns cov offset n (Ok pts) ->
  (forall p, In p pts -> mahalanobis2 cov offset p = 1) -> m00 cov = 1 /\ m11 cov = 1 /\ m10 cov = 0.
Proof.
  intros Hc Hn (V & l0 & l1 & S & E) Hall. cbv zeta in E. unfold getEllipsePoints in E. destruct (Z.ltb _ _); [|discriminate]. injection E as ->.
  assert (forall i, (i < n)%nat -> let t := INR i * 2 * PI / INR n in l0 * (cos t * cos t) + l1 * (sin t * sin t) = 1) as Hi.
  { intros i Hin t. destruct (point_distance cov V l0 l1 offset n i Hc S) as (_ & _ & _ & _ & M & _). unfold t. rewrite <- M. apply Hall, in_map, in_seq. lia. }
  destruct (point_distance cov V l0 l1 offset n 0 Hc S) as (P & L & T & D & _).
  assert (l0 = 1) as E0.
  { specialize (Hi 0%nat ltac:(lia)). cbv zeta in Hi. cbn [INR] in Hi. replace (0 * 2 * PI / INR n) with 0 in Hi by (unfold Rdiv; ring). rewrite cos_0, sin_0 in Hi. lra. }
  assert (l1 = 1) as E1.
  { specialize (Hi 1%nat ltac:(lia)). cbv zeta in Hi. cbn [INR] in Hi. set (t := 1 * 2 * PI / INR n) in Hi.
    assert (3 <= INR n) as N3 by (replace 3 with (INR 3) by (cbn; ring); apply le_INR; exact Hn).
    assert (0 < sin t) as St.
    { pose proof PI_RGT_0. apply sin_gt_0.
      - unfold t, Rdiv. apply Rmult_lt_0_compat; [lra|]. apply Rinv_0_lt_compat. lra.
      - unfold t. apply (Rmult_lt_reg_r (INR n)); [lra|]. replace (1 * 2 * PI / INR n * INR n) with (2 * PI) by (field; lra). nra. }
    pose proof (sc2 t) as U. rewrite E0 in Hi. assert ((l1 - 1) * (sin t * sin t) = 0) as Z by lra.
    apply Rmult_integral in Z. destruct Z as [Z|Z]; [lra|nra]. }
  rewrite E0, E1 in T, D. assert ((m00 cov - 1) * (m00 cov - 1) + m10 cov * m10 cov = 0) as Z.
  { replace (m11 cov) with (2 - m00 cov) in D by lra. lra. }
  pose proof (Rle_0_sqr (m00 cov - 1)) as Q1. pose proof (Rle_0_sqr (m10 cov)) as Q2. unfold Rsqr in *.
  assert (m10 cov * m10 cov = 0) as Z2 by lra. assert ((m00 cov - 1) * (m00 cov - 1) = 0) as Z1 by lra.
  apply Rmult_integral in Z1. apply Rmult_integral in Z2. destruct Z1; destruct Z2; lra.
Qed.
Example C73_nonvacuous : cov2 (mkM2 2 1 1 2) /\ exists pts, get2DCovarianceEllipsePoints_returns (mkM2 2 1 1 2) (mkP 0 0) 100 (Ok pts) /\ length pts = 100%nat.
Proof. split; [unfold cov2; cbn [m00 m01 m10 m11]; lra|]. apply C73_returns. reflexivity. Qed.
