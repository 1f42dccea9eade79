(** Correctness of the Cholesky factorisation [llt_L] on positive definite matrices. *)
From mathcomp Require Import all_ssreflect all_algebra.
From Verif Require Import Outcome LinAlg KF_Model UKF_Model.
Set Implicit Arguments.
Unset Strict Implicit.
Unset Printing Implicit Defensive.
Import GRing.Theory Num.Theory Order.TTheory.
Local Open Scope ring_scope.

Section Chol.
Variables (R : rcfType) (n : nat) (A : 'M[R]_n).
Hypothesis pA : pd A.
Implicit Types (M : 'M[R]_n) (i j k l : 'I_n).

Record inv (c : nat) M : Prop := {
  iv_rest : forall i j, (c <= j)%N -> M i j = A i j;
  iv_fact : forall i j, (j < c)%N -> (j <= i)%N -> \sum_(l < n | (l <= j)%N) M i l * M j l = A i j;
  iv_diag : forall j, (j < c)%N -> 0 < M j j
}.

Definition low M i l : R := if (l <= i)%N then M i l else 0.

(** back substitution *)
Lemma tri_solve c M k : (forall j, (j < k)%N -> 0 < M j j) -> (c <= k)%N ->
  exists v : 'I_n -> R, [/\ v k = 1, (forall i, (k < i)%N -> v i = 0), (forall i, (i < k - c)%N -> v i = 0)
    & forall l, (k - c <= l < k)%N -> \sum_i v i * low M i l = 0].
Proof.
move=> hd; elim: c => [|c IH] hc.
  exists (fun i => (i == k)%:R); split; rewrite ?eqxx // ?subn0.
  - by move=> i h; rewrite -val_eqE gtn_eqF.
  - by move=> i h; rewrite -val_eqE ltn_eqF.
  - by move=> l; rewrite ltnNge; case: leqP.
have {IH} [|v [v1 v2 v3 v4]] := IH; first exact: ltnW.
have hp : (k - c.+1 < n)%N by apply: leq_ltn_trans (leq_subr _ _) (ltn_ord k).
pose e := Ordinal hp.
have ek : (e < k)%N by rewrite /= ltn_subrL /=; apply: leq_ltn_trans hc.
have ec : (e < k - c)%N by rewrite /= subnS prednK // subn_gt0.
pose b := - (\sum_i v i * low M i e) / M e e.
have nz : M e e != 0 by rewrite gt_eqF // hd.
exists (fun i => if i == e then b else v i); split.
- by rewrite ifN // -val_eqE gtn_eqF.
- by move=> i h; rewrite ifN ?v2 // -val_eqE gtn_eqF //; apply: ltn_trans h.
- move=> i h; rewrite ifN; last by rewrite -val_eqE ltn_eqF.
  by apply: v3; apply: leq_trans h _; apply: leq_sub2l.
move=> l /andP[h1 h2].
have -> : \sum_i (if i == e then b else v i) * low M i l = \sum_i v i * low M i l + b * low M e l.
  rewrite (bigD1 e) //= eqxx [in RHS](bigD1 e) //= v3 // mul0r add0r addrC; congr (_ + _).
  by apply: eq_bigr => i /negbTE ->.
case: (ltngtP (k - c.+1)%N l) h1 => // [h1|h1] _; last first.
  have -> : l = e by apply: val_inj.
  by rewrite {2}/low leqnn /b divfK // addrN.
rewrite v4 ?add0r; first by rewrite /low leqNgt h1 mulr0.
by rewrite h2 andbT; move: h1; rewrite subnS prednK // subn_gt0.
Qed.

Lemma fact_low M c k i j : inv c M -> c = k -> (i <= k)%N -> (j <= k)%N -> ~~ ((i == k) && (j == k)) ->
  A i j = \sum_(l < n | (l < k)%N) low M i l * low M j l.
Proof.
have sA : sym A by case: pA.
have main i' j' : inv k M -> (j' < k)%N -> (j' <= i')%N -> A i' j' = \sum_(l < n | (l < k)%N) low M i' l * low M j' l.
  move=> hv h1 h2; rewrite -(iv_fact hv h1 h2).
  rewrite [RHS](bigID (fun l : 'I_n => (l <= j')%N)) /= [X in _ = _ + X]big1 ?addr0; last first.
    by move=> l /andP[_ h3]; rewrite /low (negbTE h3) mulr0.
  apply: eq_big => [l|l h3].
    by case: (leqP l j'); rewrite ?andbF // andbT => h3; rewrite (leq_ltn_trans h3).
  by rewrite /low h3 (leq_trans h3 h2).
move=> hv ec hi hj; rewrite ec in hv; rewrite negb_and => hn.
case: (leqP j i) => hji.
  apply: main => //; case: (ltngtP j k) hj => // /val_inj e _; subst j.
  have ik : i = k by apply: val_inj; apply/eqP; rewrite eqn_leq hi hji.
  by move: hn; rewrite ik eqxx.
rewrite -(congr1 (fun M0 : 'M[R]_n => M0 i j) sA) mxE main //; first by apply: eq_bigr => l _; rewrite mulrC.
  by apply: leq_trans hj.
exact: ltnW.
Qed.

Lemma pivot_pos M k : inv k M -> 0 < llt_pivot M k.
Proof.
move=> hv; have [v [v1 v2 _ v4]] := tri_solve (iv_diag hv) (leqnn k).
pose w : 'cV[R]_n := \col_i v i.
have wn : w != 0.
  apply/eqP => /matrixP/(_ k 0); rewrite !mxE v1 => /eqP; by rewrite oner_eq0.
have [_ /(_ w wn)] := pA; set x := llt_pivot M k.
have -> // : qf A w = x.
rewrite /qf /bf mxE.
have ex : A k k = \sum_(l < n | (l < k)%N) low M k l * low M k l + x.
  rewrite -(@iv_rest _ _ hv k k (leqnn k)) /x /llt_pivot addrC.
  have -> : \sum_(l < n | (l < k)%N) low M k l * low M k l = \sum_(j < n | (j < k)%N) M k j ^+ 2.
    by apply: eq_bigr => l h; rewrite /low (ltnW h) expr2.
  by rewrite subrK.
have hA i j : v i * A i j * v j = v i * (\sum_(l < n | (l < k)%N) low M i l * low M j l) * v j + v i * ((i == k) && (j == k))%:R * v j * x.
  case: (leqP i k) => [hi|hi]; last by rewrite v2 // !mul0r addr0.
  case: (leqP j k) => [hj|hj]; last by rewrite (v2 j) // !mulr0 mul0r addr0.
  case hc: ((i == k) && (j == k)).
    case/andP: hc => /eqP -> /eqP ->.
    by rewrite v1 ex !mul1r !mulr1 ?mul1r.
  by rewrite mulr0 mul0r mul0r addr0 -(fact_low hv) // hc.
transitivity (\sum_(j < n) \sum_(i < n) (v i * (\sum_(l < n | (l < k)%N) low M i l * low M j l) * v j + v i * ((i == k) && (j == k))%:R * v j * x)).
  apply: eq_bigr => j _; rewrite mxE big_distrl /=; apply: eq_bigr => i _.
  by rewrite -hA; congr (_ * _ * _); rewrite mxE // mxE.
have -> : \sum_(j < n) \sum_(i < n) (v i * (\sum_(l < n | (l < k)%N) low M i l * low M j l) * v j + v i * ((i == k) && (j == k))%:R * v j * x)
  = \sum_(j < n) \sum_(i < n) v i * (\sum_(l < n | (l < k)%N) low M i l * low M j l) * v j + \sum_(j < n) \sum_(i < n) v i * ((i == k) && (j == k))%:R * v j * x.
  by rewrite -big_split /=; apply: eq_bigr => j _; rewrite big_split.
have -> : \sum_(j < n) \sum_(i < n) v i * ((i == k) && (j == k))%:R * v j * x = x.
  rewrite (bigD1 k) //= [X in _ + X]big1 ?addr0; last first.
    by move=> j /negbTE h; apply: big1 => i _; rewrite h andbF mulr0 !mul0r.
  rewrite (bigD1 k) //= [X in _ + X]big1 ?addr0; last first.
    by move=> j /negbTE h; rewrite h /= mulr0 !mul0r.
  by rewrite !eqxx v1 !mul1r.
rewrite (_ : \sum_(j < n) _ = 0) ?add0r //.
transitivity (\sum_(l < n | (l < k)%N) (\sum_i v i * low M i l) * (\sum_j v j * low M j l)).
  transitivity (\sum_(j < n) \sum_(l < n | (l < k)%N) \sum_(i < n) v i * (low M i l * low M j l) * v j).
    apply: eq_bigr => j _; rewrite exchange_big /=; apply: eq_bigr => i _.
    by rewrite big_distrr big_distrl.
  rewrite exchange_big /=; apply: eq_bigr => l _.
  rewrite big_distrlr /= exchange_big /=; apply: eq_bigr => i _; apply: eq_bigr => j _.
  by rewrite !mulrA [in RHS]mulrAC.
by apply: big1 => l h; rewrite v4 ?mul0r // subnn.
Qed.

Lemma column_inv M k : inv k M -> inv k.+1 (llt_column M k (Num.sqrt (llt_pivot M k))).
Proof.
move=> hv; have px := pivot_pos hv; set x := llt_pivot M k in px *; set d := Num.sqrt x.
have d0 : 0 < d by rewrite sqrtr_gt0.
have dd : d * d = x by rewrite -expr2 sqr_sqrtr // ltW.
have old i j : (j < k)%N -> llt_column M k d i j = M i j.
  by move=> h; rewrite mxE ifN // -val_eqE ltn_eqF.
split.
- move=> i j h; rewrite mxE ifN; last by rewrite -val_eqE gtn_eqF.
  by apply: (iv_rest hv); apply: ltnW.
- move=> i j; rewrite ltnS leq_eqVlt => /orP[/eqP /val_inj -> {j}|hj] hi; last first.
    rewrite -(iv_fact hv hj hi); apply: eq_bigr => l hl.
    by rewrite !old //; apply: leq_ltn_trans hj.
  rewrite (bigID (fun l : 'I_n => (l < k)%N)) /=.
  have -> : \sum_(l < n | (l <= k)%N && (l < k)%N) llt_column M k d i l * llt_column M k d k l
            = \sum_(l < n | (l < k)%N) M i l * M k l.
    apply: eq_big => [l|l /andP[_ h]]; last by rewrite !old.
    by case h: (l < k)%N; rewrite ?andbF // andbT ltnW.
  rewrite [X in _ + X](big_pred1 k); last first.
    by move=> l; rewrite /= -val_eqE /=; case: ltngtP.
  rewrite !mxE eqxx.
  case: (ltngtP k i) hi => // [hi|/val_inj e] _; last first.
    subst i; rewrite eqxx dd /x /llt_pivot (iv_rest hv) //.
    rewrite (_ : \sum_(l < n | _) M k l * M k l = \sum_(l < n | (l < k)%N) M k l ^+ 2); first by rewrite addrC subrK.
    by apply: eq_bigr => l _; rewrite expr2.
  rewrite ifN; last by rewrite -val_eqE gtn_eqF.
  by rewrite divfK ?gt_eqF // (iv_rest hv) // addrC subrK.
- move=> j; rewrite ltnS leq_eqVlt => /orP[/eqP /val_inj ->|hj]; first by rewrite mxE !eqxx.
  by rewrite old // (iv_diag hv).
Qed.

Lemma loop_inv c M : inv c M -> (c <= n)%N -> inv n (llt_loop M (drop c (enum 'I_n))).
Proof.
move e: (n - c)%N => r; elim: r c M e => [|r IH] c M e hv hc.
  have cn : c = n by apply/eqP; rewrite eqn_leq hc -subn_eq0 e.
  by rewrite drop_oversize ?size_enum_ord ?cn //=; rewrite -{1}cn.
have cn : (c < n)%N by rewrite -subn_gt0 e.
rewrite (drop_nth (Ordinal cn)) ?size_enum_ord //.
have -> : nth (Ordinal cn) (enum 'I_n) c = Ordinal cn by apply: val_inj; rewrite /= nth_enum_ord.
have hv' : inv (Ordinal cn) M by [].
rewrite /= leNgt (pivot_pos hv') /=.
by apply: IH; [rewrite subnS e|exact: (column_inv hv')|].
Qed.

Theorem llt_correct : llt_L A *m (llt_L A)^T = A.
Proof.
have hv : inv n (llt_loop A (enum 'I_n)).
  by rewrite -[enum _]drop0; apply: loop_inv => //; split.
set M := llt_loop A _ in hv *.
have main i j : (j <= i)%N -> \sum_(l < n) llt_L A i l * llt_L A j l = A i j.
  move=> h; rewrite -(iv_fact hv (ltn_ord j) h).
  rewrite (bigID (fun l : 'I_n => (l <= j)%N)) /= [X in _ + X]big1 ?addr0; last first.
    by move=> l hl; rewrite [llt_L A j l]mxE (negbTE hl) mulr0.
  by apply: eq_bigr => l hl; rewrite !mxE hl (leq_trans hl h).
apply/matrixP => i j; rewrite mxE.
have -> : \sum_l llt_L A i l * (llt_L A)^T l j = \sum_l llt_L A i l * llt_L A j l.
  by apply: eq_bigr => l _; rewrite [_^T _ _]mxE.
case: (leqP j i) => [|/ltnW] h; first exact: main.
have [sA _] := pA.
rewrite -[in RHS](congr1 (fun M0 : 'M[R]_n => M0 i j) sA) mxE -main //.
by apply: eq_bigr => l _; rewrite mulrC.
Qed.
End Chol.
