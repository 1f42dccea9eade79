(** C58: weightedQuaternion. *)
From mathcomp Require Import all_ssreflect all_algebra.
From Verif Require Import McRing LinAlg Spectral QuatMean.
Import GRing.Theory Num.Theory Order.TTheory.
Set Implicit Arguments. Unset Strict Implicit. Unset Printing Implicit Defensive.
Local Open Scope ring_scope.

Section C58.
Variable R : rcfType.
Add Field Rfield : (mc_field R).
Local Notation quat := (mquat R).
Implicit Types (w : seq R) (qs : seq quat) (p q : quat).

(** specification *)
Definition mq_opp (q : quat) : quat := MQuat (- mq_w q) (- mq_x q) (- mq_y q) (- mq_z q).
Definition mq_dot (p q : quat) : R := mq_w p * mq_w q + mq_x p * mq_x q + mq_y p * mq_y q + mq_z p * mq_z q.
Definition mq_mul (p q : quat) : quat :=
  MQuat (mq_w p * mq_w q - mq_x p * mq_x q - mq_y p * mq_y q - mq_z p * mq_z q)
        (mq_w p * mq_x q + mq_x p * mq_w q + mq_y p * mq_z q - mq_z p * mq_y q)
        (mq_w p * mq_y q - mq_x p * mq_z q + mq_y p * mq_w q + mq_z p * mq_x q)
        (mq_w p * mq_z q + mq_x p * mq_y q - mq_y p * mq_x q + mq_z p * mq_w q).
Definition mq_unit (q : quat) : Prop := mq_dot q q = 1.
(** how well p fits the set: the weighted sum of squared cosines of half the rotation angles *)
Definition fit w qs p : R := \sum_(x <- zip w qs) x.1 * mq_dot x.2 p ^+ 2.

Lemma I4 (P : 'I_4 -> Prop) : P i0 -> P i1 -> P i2 -> P i3 -> forall i, P i.
Proof.
move=> h0 h1 h2 h3 i; case: i => [[|[|[|[|//]]]] hi].
- by have <- : i0 = Ordinal hi by apply: val_inj; rewrite /= inordK.
- by have <- : i1 = Ordinal hi by apply: val_inj; rewrite /= inordK.
- by have <- : i2 = Ordinal hi by apply: val_inj; rewrite /= inordK.
- by have <- : i3 = Ordinal hi by apply: val_inj; rewrite /= inordK.
Qed.
Lemma sum4 (F : 'I_4 -> R) : \sum_i F i = F i0 + F i1 + F i2 + F i3.
Proof.
rewrite !big_ord_recl big_ord0 addr0 !addrA; congr (F _ + F _ + F _ + F _); apply: val_inj; by rewrite /= inordK.
Qed.
Lemma coeffs_dot p q : dot (coeffs p) (coeffs q) = mq_dot p q.
Proof. by rewrite dotE sum4 !mxE !inordK //= /mq_dot; mcring R. Qed.
Definition of_vec (v : 'cV[R]_4) : quat := MQuat (v i3 0) (v i0 0) (v i1 0) (v i2 0).
Lemma of_vecK v : coeffs (of_vec v) = v.
Proof. by apply/colP; apply: I4; rewrite mxE inordK. Qed.
Lemma coeffsK q : of_vec (coeffs q) = q.
Proof. by case: q => a b c d; rewrite /of_vec !mxE !inordK. Qed.
Lemma coeffs_opp q : coeffs (mq_opp q) = - coeffs q.
Proof. by apply/colP; apply: I4; rewrite !mxE !inordK. Qed.
Lemma wq_matrixE w qs : wq_matrix w qs = \sum_(x <- zip w qs) x.1 *: (coeffs x.2 *m (coeffs x.2)^T).
Proof.
have E (l : seq (R * quat)) (M : 'M[R]_4) : foldl (fun m wq => m + wq.1 *: (coeffs wq.2 *m (coeffs wq.2)^T)) M l
    = M + \sum_(x <- l) x.1 *: (coeffs x.2 *m (coeffs x.2)^T).
  by elim: l M => [|x l IH] M /=; rewrite ?big_nil ?addr0 // IH big_cons addrA.
by rewrite /wq_matrix E add0r.
Qed.
Lemma wq_sym w qs : sym (wq_matrix w qs).
Proof.
rewrite /sym wq_matrixE linear_sum; apply: eq_bigr => x _ /=; by rewrite linearZ /= trmx_mul trmxK.
Qed.
Lemma fitE w qs p : fit w qs p = qf (wq_matrix w qs) (coeffs p).
Proof.
rewrite /fit wq_matrixE; elim: (zip w qs) => [|x l IH]; first by rewrite !big_nil qf0.
by rewrite !big_cons IH qfD qfZ qf_outer coeffs_dot.
Qed.

(** the eigenvector of the largest eigenvalue *)
Definition top (A : 'M[R]_4) (v : 'cV[R]_4) : Prop :=
  exists l, [/\ dot v v = 1, A *m v = l *: v & forall x, qf A x <= l * dot x x].
Lemma solver_top A V d : eigen_solver A V d -> top A (col i3 V).
Proof.
move=> [o hA inc]; exists (d 0 i3); split.
- transitivity ((V^T *m V) i3 i3); last by rewrite o mxE eqxx.
  by rewrite dotE [RHS]mxE; apply: eq_bigr => k _; rewrite !mxE.
- have e : V^T *m col i3 V = delta_mx i3 0 by rewrite colE mulmxA o mul1mx.
  rewrite hA -mulmxA e -mulmxA; have -> : diag_mx d *m delta_mx i3 0 = d 0 i3 *: (delta_mx i3 0 : 'cV[R]_4).
    by apply/colP=> i; rewrite mul_diag_mx !mxE; case: eqP => [->|] //=; rewrite !mulr0.
  by rewrite -scalemxAr colE.
- move=> x; rewrite hA qf_congr; set y := V^T *m x.
  have o' : V *m V^T = 1%:M by apply: mulmx1C.
  have -> : dot x x = dot y y by rewrite /y [dot (V^T *m x) _]dot_mul trmxK mulmxA o' mul1mx.
  rewrite qfE !dotE mulr_sumr; apply: ler_sum => i _; rewrite mul_diag_mx !mxE.
  rewrite mulrCA; apply: ler_wpmul2r; first by rewrite -expr2 sqr_ge0.
  by apply: inc; rewrite /i3 inordK //; case: (i) => [[|[|[|[|]]]]].
Qed.
Lemma returns_top w qs q : weightedQuaternion_returns w qs q -> top (wq_matrix w qs) (coeffs q).
Proof. by move=> [_ [V [d [s ->]]]]; rewrite -[MQuat _ _ _ _]/(of_vec (col i3 V)) of_vecK; exact: solver_top s. Qed.

Theorem C58_total w qs : size w = size qs -> exists q, weightedQuaternion_returns w qs q.
Proof.
move=> hs; have [V [d s]] := eigen_solver_total (wq_sym w qs).
by exists (of_vec (col i3 V)); split => //; exists V, d.
Qed.
Theorem C58_unit w qs q : weightedQuaternion_returns w qs q -> mq_unit q.
Proof. by move=> /returns_top [l [h _ _]]; rewrite /mq_unit -coeffs_dot. Qed.

(** replacing some of the quaternions by their opposites *)
Definition flip_signs (s : seq bool) qs := [seq if x.1 then mq_opp x.2 else x.2 | x <- zip s qs].
Theorem C58_signs w qs s q : size s = size qs ->
  weightedQuaternion_returns w (flip_signs s qs) q <-> weightedQuaternion_returns w qs q.
Proof.
move=> hs; have e : wq_matrix w (flip_signs s qs) = wq_matrix w qs.
  rewrite !wq_matrixE; elim: qs w s hs => [|p qs IH] [|c w] [|b s] //= [hs]; rewrite ?big_nil // !big_cons IH //=.
  by case: b; rewrite //= coeffs_opp linearN /= mulNmx mulmxN opprK.
by rewrite /weightedQuaternion_returns e size_map size_zip hs minnn.
Qed.
(** all quaternions equal and the weights add up to something positive *)
Theorem C58_equal w q r : mq_unit q -> 0 < \sum_(c <- w) c ->
  weightedQuaternion_returns w (nseq (size w) q) r -> r = q \/ r = mq_opp q.
Proof.
move=> uq pw /returns_top [l [u e m]]; set W := \sum_(c <- w) c in pw.
have eA : wq_matrix w (nseq (size w) q) = W *: (coeffs q *m (coeffs q)^T).
  by rewrite wq_matrixE /W; elim: (w) => [|c v IH] /=; rewrite ?big_nil ?scale0r // !big_cons IH scalerDl.
have uq' : dot (coeffs q) (coeffs q) = 1 by rewrite coeffs_dot.
have hl : W <= l by have := m (coeffs q); rewrite eA qfZ qf_outer uq' expr1n !mulr1.
move: e; rewrite eA -scalemxAl -mulmxA [(coeffs q)^T *m _]mx11_scalar mul_mx_scalar scalerA -/(dot (coeffs q) (coeffs r)) => e.
have l0 : l != 0 by rewrite gt_eqF // (lt_le_trans pw).
pose c := l^-1 * (W * dot (coeffs q) (coeffs r)).
have er : coeffs r = c *: coeffs q by rewrite /c -scalerA e scalerA mulVf // scale1r.
have : c ^+ 2 = 1 by move: u; rewrite er dotZl dotZr uq' mulr1 expr2.
move/eqP; rewrite sqrf_eq1 => /orP [/eqP c1|/eqP c1]; [left|right].
- by rewrite -(coeffsK r) er c1 scale1r coeffsK.
- by rewrite -(coeffsK r) er c1 scaleN1r -coeffs_opp coeffsK.
Qed.
(** the result fits at least as well as every unit quaternion *)
Theorem C58_maximises w qs q p : weightedQuaternion_returns w qs q -> mq_unit p -> fit w qs p <= fit w qs q.
Proof.
move=> /returns_top [l [u e m]] up; rewrite !fitE; have := m (coeffs p).
by rewrite coeffs_dot up mulr1 => /le_trans; apply; rewrite qfE e dotZr u mulr1.
Qed.
(** it is determined up to its sign when every rotation by a half turn from it fits strictly worse *)
Theorem C58_unique w qs q r : weightedQuaternion_returns w qs q ->
  (forall p, mq_unit p -> mq_dot q p = 0 -> fit w qs p < fit w qs q) ->
  weightedQuaternion_returns w qs r -> r = q \/ r = mq_opp q.
Proof.
move=> hq gap hr; have ur := C58_unit hr; have eqf : fit w qs q = fit w qs r.
  by apply/eqP; rewrite eq_le !C58_maximises //; exact: (C58_unit hq).
have [l [u e m]] := returns_top hq; pose v := coeffs q; pose c := dot v (coeffs r).
have [t vt er] : exists2 t, dot v t = 0 & coeffs r = c *: v + t.
  by exists (coeffs r - c *: v); [rewrite dotDr -scaleNr dotZr u mulr1 subrr|rewrite addrC subrK].
have tt : dot t t = 1 - c ^+ 2.
  have : dot (coeffs r) (coeffs r) = 1 by rewrite coeffs_dot.
  by rewrite er !(dotDl, dotDr, dotZl, dotZr) u [dot t v]dotC vt !mulr0 addr0 add0r mulr1 -expr2 => <-; rewrite addrC addKr.
have fr : qf (wq_matrix w qs) (coeffs r) = c ^+ 2 * l + qf (wq_matrix w qs) t.
  rewrite er /qf !(bfDl, bfDr) !(bfZl, bfZr) [bf _ t v]bf_sym; last exact: wq_sym.
  have -> : bf (wq_matrix w qs) v t = 0 by rewrite bf_sym ?bfE; [rewrite e dotZr dotC vt mulr0|exact: wq_sym].
  by rewrite bfE e dotZr u !mulr0 addr0 add0r mulr1 expr2 mulrA.
have fq : qf (wq_matrix w qs) v = l by rewrite qfE e dotZr u mulr1.
have t0 : t = 0.
  apply/eqP; apply: contraT => t0; have dt := dot_gt0 t0; pose k := (Num.sqrt (dot t t))^-1.
  have kk : k ^+ 2 = (dot t t)^-1 by rewrite /k exprVn sqr_sqrtr // ltW.
  have := gap (of_vec (k *: t)); rewrite /mq_unit -!coeffs_dot of_vecK dotZl !dotZr mulrA -expr2 kk mulVf ?gt_eqF // vt mulr0 => /(_ erefl erefl).
  rewrite !fitE of_vecK -/v fq; have -> : qf (wq_matrix w qs) (k *: t) = (dot t t)^-1 * qf (wq_matrix w qs) t by rewrite /qf bfZl bfZr mulrA -expr2 kk.
  move=> hlt; have : qf (wq_matrix w qs) t < dot t t * l by rewrite -(ltr_pmul2l (_ : 0 < (dot t t)^-1)) ?invr_gt0 // mulKf ?gt_eqF.
  move: eqf; rewrite !fitE fr -/v fq tt mulrBl mul1r => {1}->; by rewrite [_ + qf _ _]addrC addrK ltxx.
have : c ^+ 2 = 1 by apply/eqP; rewrite eq_sym -subr_eq0 -tt t0 dotE big1 // => i _; rewrite mxE mul0r.
move/eqP; rewrite sqrf_eq1 => /orP [/eqP c1|/eqP c1]; [left|right]; rewrite -(coeffsK r) er t0 addr0 c1.
- by rewrite scale1r coeffsK.
- by rewrite scaleN1r -coeffs_opp coeffsK.
Qed.
(** rotating every quaternion by the same rotation rotates the result *)
Theorem C58_rotated w qs q p : mq_unit p ->
  weightedQuaternion_returns w qs q -> weightedQuaternion_returns w [seq mq_mul p x | x <- qs] (mq_mul p q).
Proof.
move=> up [hs [V [d [[o hA inc] ->]]]]; split; first by rewrite size_map.
case: p up => pw px py pz up.
pose L : 'M[R]_4 := \matrix_(i, j) (nth [::] [:: [:: pw; - pz; py; px]; [:: pz; pw; - px; py]; [:: - py; px; pw; pz]; [:: - px; - py; - pz; pw]] i)`_j.
have LE q' : coeffs (mq_mul (MQuat pw px py pz) q') = L *m coeffs q'.
  by apply/colP; apply: I4; rewrite [RHS]mxE sum4 !mxE !inordK //=; mcring R.
have LL : L^T *m L = 1%:M.
  move: up; rewrite /mq_unit /mq_dot /= => up.
  apply/matrixP=> i j; rewrite [LHS]mxE sum4; elim/I4: i; elim/I4: j; rewrite !mxE -?val_eqE /= !inordK //= ?mulr1n ?mulr0n -?up; mcring R.
have oL : (L *m V)^T *m (L *m V) = 1%:M by rewrite trmx_mul mulmxA -[V^T *m L^T *m L]mulmxA LL mulmx1.
exists (L *m V), d; split; last first.
  transitivity (of_vec (L *m coeffs (of_vec (col i3 V)))); first by rewrite -LE coeffsK.
  by rewrite of_vecK; have -> : L *m col i3 V = col i3 (L *m V) by rewrite !colE mulmxA.
split=> //; rewrite trmx_mul -!mulmxA [V *m (diag_mx d *m _)]mulmxA [_ *m (V^T *m _)]mulmxA -hA mulmxA !wq_matrixE.
elim: qs w {hs V d o hA inc oL} => [|x qs IH] [|c w] /=; rewrite ?big_nil ?mulmx0 ?mul0mx // !big_cons mulmxDr mulmxDl -IH; congr (_ + _) => /=.
by rewrite LE trmx_mul -scalemxAr -scalemxAl !mulmxA.
Qed.

(** two different unit quaternions, one with twice the weight: the solver's answer is the identity matrix
    with its columns reordered, and the heavier quaternion wins *)
Example C58_nonvacuous : let q1 := MQuat 1 0 0 0 : mquat R in let q2 := MQuat 0 1 0 0 : mquat R in
  mq_unit q1 /\ mq_unit q2 /\ 0 < \sum_(c <- [:: 2%:R; 1] : seq R) c /\ exists r, weightedQuaternion_returns [:: 2%:R; 1] [:: q1; q2] r /\ (r = q1 \/ r = mq_opp q1).
Proof.
move=> q1 q2; have u1 : mq_unit q1 by rewrite /mq_unit /mq_dot /= !mulr0 mulr1 !addr0.
have u2 : mq_unit q2 by rewrite /mq_unit /mq_dot /= !mulr0 mulr1 add0r !addr0.
do 2 (split=> //); split; first by rewrite !big_cons big_nil addr0 addr_gt0 ?ltr0Sn ?ltr01.
have [r hr] := @C58_total [:: 2%:R; 1] [:: q1; q2] erefl; exists r; split=> //.
have := C58_unit hr; have := C58_maximises hr u1; case: r {hr} => a b c d.
rewrite /mq_unit /fit /= !big_cons !big_nil /mq_dot /= !(mul0r, mul1r, mulr0, mulr1, add0r, addr0) expr1n expr0n /= addr0 mulr1 => mx un.
have h : b ^+ 2 + 2%:R * c ^+ 2 + 2%:R * d ^+ 2 <= 0.
  have e : b ^+ 2 + 2%:R * c ^+ 2 + 2%:R * d ^+ 2 = 2%:R * (a * a + b * b + c * c + d * d) - (2%:R * a ^+ 2 + b ^+ 2) by mcring R.
  by rewrite e un mulr1 subr_le0.
have [b0 c0 d0] : [/\ b ^+ 2 = 0, c ^+ 2 = 0 & d ^+ 2 = 0].
  have [p1 p2 p3] : [/\ 0 <= b ^+ 2, 0 <= 2%:R * c ^+ 2 & 0 <= 2%:R * d ^+ 2] by split; [exact: sqr_ge0|apply: mulr_ge0; [exact: ler0n|exact: sqr_ge0]|apply: mulr_ge0; [exact: ler0n|exact: sqr_ge0]].
  have /eqP : b ^+ 2 + 2%:R * c ^+ 2 + 2%:R * d ^+ 2 = 0 by apply: le_anti; rewrite h !addr_ge0.
  by rewrite !paddr_eq0 ?addr_ge0 // !mulf_eq0 !pnatr_eq0 /= !orbb => /andP [/andP [/eqP -> /eqP ->] /eqP ->]; rewrite !expr0n.
have z (x : R) : x ^+ 2 = 0 -> x = 0 by move/eqP; rewrite expf_eq0 => /eqP.
move: (un); rewrite (z _ b0) (z _ c0) (z _ d0) !mul0r !addr0 -expr2 => /eqP; rewrite sqrf_eq1 => /orP [] /eqP ->; [left|right] => //.
by rewrite /mq_opp /= oppr0.
Qed.
End C58.
