(** Symmetric positive (semi-)definite matrices over a real field. *)
From mathcomp Require Import all_ssreflect all_algebra.
From Verif Require Import McRing.
Set Implicit Arguments.
Unset Strict Implicit.
Unset Printing Implicit Defensive.
Import GRing.Theory Num.Theory Num.Def Order.TTheory.
Local Open Scope ring_scope.

Section LinAlg.
Variable R : realFieldType.
Add Field Rfield : (mc_field R).

(** quadratic form and bilinear form *)
Definition bf n (A : 'M[R]_n) (x y : 'cV[R]_n) : R := (x^T *m A *m y) 0 0.
Definition qf n (A : 'M[R]_n) (x : 'cV[R]_n) : R := bf A x x.
Definition sym n (A : 'M[R]_n) : Prop := A^T = A.
Definition psd n (A : 'M[R]_n) : Prop := sym A /\ forall x, 0 <= qf A x.
Definition pd n (A : 'M[R]_n) : Prop := sym A /\ forall x, x != 0 -> 0 < qf A x.
(** Loewner order *)
Definition lle n (A B : 'M[R]_n) : Prop := psd (B - A).
Definition dot n (x y : 'cV[R]_n) : R := (x^T *m y) 0 0.

Lemma dotE n (x y : 'cV[R]_n) : dot x y = \sum_i x i 0 * y i 0.
Proof. by rewrite /dot mxE; apply: eq_bigr => i _; rewrite mxE. Qed.
Lemma dotC n (x y : 'cV[R]_n) : dot x y = dot y x.
Proof. by rewrite !dotE; apply: eq_bigr => i _; rewrite mulrC. Qed.
Lemma dot_ge0 n (x : 'cV[R]_n) : 0 <= dot x x.
Proof. by rewrite dotE; apply: sumr_ge0 => i _; rewrite -expr2 sqr_ge0. Qed.
Lemma dot_eq0 n (x : 'cV[R]_n) : (dot x x == 0) = (x == 0).
Proof.
apply/idP/idP => [|/eqP ->]; last by rewrite /dot mulmx0 mxE.
rewrite dotE psumr_eq0 => [/allP H|i _]; last by rewrite -expr2 sqr_ge0.
apply/eqP/matrixP => i j; rewrite !mxE ord1.
by have := H i (mem_index_enum _); rewrite -expr2 sqrf_eq0 => /eqP.
Qed.
Lemma dot_gt0 n (x : 'cV[R]_n) : x != 0 -> 0 < dot x x.
Proof. by move=> h; rewrite lt_neqAle eq_sym dot_eq0 h dot_ge0. Qed.
Lemma dotDl n (x y z : 'cV[R]_n) : dot (x + y) z = dot x z + dot y z.
Proof. by rewrite /dot linearD mulmxDl mxE. Qed.
Lemma dotDr n (x y z : 'cV[R]_n) : dot z (x + y) = dot z x + dot z y.
Proof. by rewrite /dot mulmxDr mxE. Qed.
Lemma dotZl n a (x z : 'cV[R]_n) : dot (a *: x) z = a * dot x z.
Proof. by rewrite /dot linearZ -scalemxAl mxE. Qed.
Lemma dotZr n a (x z : 'cV[R]_n) : dot z (a *: x) = a * dot z x.
Proof. by rewrite /dot -scalemxAr mxE. Qed.
Lemma dot_mul m n (A : 'M[R]_(m, n)) x y : dot x (A *m y) = dot (A^T *m x) y.
Proof. by rewrite /dot trmx_mul trmxK mulmxA. Qed.

Lemma bfE n (A : 'M[R]_n) x y : bf A x y = dot x (A *m y).
Proof. by rewrite /bf /dot mulmxA. Qed.
Lemma qfE n (A : 'M[R]_n) x : qf A x = dot x (A *m x). Proof. exact: bfE. Qed.
Lemma bf_sym n (A : 'M[R]_n) x y : sym A -> bf A x y = bf A y x.
Proof. by move=> sA; rewrite !bfE dot_mul sA dotC. Qed.
Lemma bfDl n (A : 'M[R]_n) x y z : bf A (x + y) z = bf A x z + bf A y z.
Proof. by rewrite !bfE dotDl. Qed.
Lemma bfDr n (A : 'M[R]_n) x y z : bf A z (x + y) = bf A z x + bf A z y.
Proof. by rewrite !bfE mulmxDr dotDr. Qed.
Lemma bfZl n (A : 'M[R]_n) a x z : bf A (a *: x) z = a * bf A x z.
Proof. by rewrite !bfE dotZl. Qed.
Lemma bfZr n (A : 'M[R]_n) a x z : bf A z (a *: x) = a * bf A z x.
Proof. by rewrite !bfE -scalemxAr dotZr. Qed.
Lemma qfD n (A B : 'M[R]_n) x : qf (A + B) x = qf A x + qf B x.
Proof. by rewrite !qfE mulmxDl dotDr. Qed.
Lemma qfN n (A : 'M[R]_n) x : qf (- A) x = - qf A x.
Proof. by rewrite !qfE mulNmx /dot mulmxN mxE. Qed.
Lemma qfB n (A B : 'M[R]_n) x : qf (A - B) x = qf A x - qf B x.
Proof. by rewrite qfD qfN. Qed.
Lemma qfZ n (A : 'M[R]_n) a x : qf (a *: A) x = a * qf A x.
Proof. by rewrite !qfE -scalemxAl dotZr. Qed.
Lemma qf0 n x : qf (0 : 'M[R]_n) x = 0.
Proof. by rewrite qfE mul0mx /dot mulmx0 mxE. Qed.
Lemma qf_congr m n (B : 'M[R]_(m, n)) (A : 'M[R]_n) x : qf (B *m A *m B^T) x = qf A (B^T *m x).
Proof. by rewrite !qfE -!mulmxA dot_mul. Qed.
Lemma qf_outer n (d : 'cV[R]_n) x : qf (d *m d^T) x = dot d x ^+ 2.
Proof.
rewrite qfE -mulmxA dot_mul {1}/dot mxE big_ord1.
have e : (d^T *m x)^T = (d^T *m x) by apply/matrixP => i j; rewrite !mxE !ord1.
by rewrite e expr2 /dot.
Qed.

Lemma symD n (A B : 'M[R]_n) : sym A -> sym B -> sym (A + B).
Proof. by rewrite /sym linearD /= => -> ->. Qed.
Lemma symN n (A : 'M[R]_n) : sym A -> sym (- A).
Proof. by rewrite /sym linearN /= => ->. Qed.
Lemma symB n (A B : 'M[R]_n) : sym A -> sym B -> sym (A - B).
Proof. by rewrite /sym linearB /= => -> ->. Qed.
Lemma symZ n a (A : 'M[R]_n) : sym A -> sym (a *: A).
Proof. by rewrite /sym linearZ /= => ->. Qed.
Lemma sym0 n : sym (0 : 'M[R]_n). Proof. by rewrite /sym trmx0. Qed.
Lemma sym1 n : sym (1%:M : 'M[R]_n). Proof. by rewrite /sym trmx1. Qed.
Lemma sym_congr m n (B : 'M[R]_(m, n)) (A : 'M[R]_n) : sym A -> sym (B *m A *m B^T).
Proof. by rewrite /sym !trmx_mul trmxK => ->; rewrite mulmxA. Qed.
Lemma sym_outer n (d : 'cV[R]_n) : sym (d *m d^T).
Proof. by rewrite /sym trmx_mul trmxK. Qed.

Lemma psd0 n : psd (0 : 'M[R]_n).
Proof. by split; [exact: sym0|move=> x; rewrite qf0]. Qed.
Lemma psdD n (A B : 'M[R]_n) : psd A -> psd B -> psd (A + B).
Proof. by move=> [sA pA] [sB pB]; split; [exact: symD|move=> x; rewrite qfD addr_ge0]. Qed.
Lemma psdZ n a (A : 'M[R]_n) : 0 <= a -> psd A -> psd (a *: A).
Proof. by move=> a0 [sA pA]; split; [exact: symZ|move=> x; rewrite qfZ mulr_ge0]. Qed.
Lemma psd_congr m n (B : 'M[R]_(m, n)) (A : 'M[R]_n) : psd A -> psd (B *m A *m B^T).
Proof. by move=> [sA pA]; split; [exact: sym_congr|move=> x; rewrite qf_congr]. Qed.
Lemma psd_outer n (d : 'cV[R]_n) : psd (d *m d^T).
Proof. by split; [exact: sym_outer|move=> x; rewrite qf_outer sqr_ge0]. Qed.
Lemma pd_psd n (A : 'M[R]_n) : pd A -> psd A.
Proof.
move=> [sA pA]; split=> // x; case: (x =P 0) => [->|/eqP h]; last exact: ltW (pA _ h).
by rewrite qfE mulmx0 /dot mulmx0 mxE.
Qed.
Lemma psd_pdD n (A B : 'M[R]_n) : psd A -> pd B -> pd (A + B).
Proof. by move=> [sA pA] [sB pB]; split; [exact: symD|move=> x h; rewrite qfD ltr_paddl ?pA ?pB]. Qed.
Lemma pd1 n : pd (1%:M : 'M[R]_n).
Proof. by split; [exact: sym1|move=> x h; rewrite qfE mul1mx dot_gt0]. Qed.
Lemma pdZ n a (A : 'M[R]_n) : 0 < a -> pd A -> pd (a *: A).
Proof. by move=> a0 [sA pA]; split; [exact: symZ|move=> x h; rewrite qfZ mulr_gt0 ?pA]. Qed.

(** positive definite matrices are invertible *)
Lemma pd_unit n (A : 'M[R]_n) : pd A -> A \in unitmx.
Proof.
move=> [sA pA]; rewrite -row_free_unit -kermx_eq0; apply/rowV0P => v /sub_kermxP h.
apply/eqP; apply: contraT => hv.
have hx : v^T != 0 by apply: contraNneq hv => e; rewrite -[v]trmxK e trmx0.
by have := pA _ hx; rewrite qfE /dot trmxK mulmxA h mul0mx mxE ltxx.
Qed.
Lemma sym_inv n (A : 'M[R]_n) : sym A -> sym (invmx A).
Proof. by rewrite /sym trmx_inv => ->. Qed.
Lemma pd_inv n (A : 'M[R]_n) : pd A -> pd (invmx A).
Proof.
move=> pA; have uA := pd_unit pA; case: pA => sA pA; split; first exact: sym_inv.
move=> x h; have -> : qf (invmx A) x = qf A (invmx A *m x).
  by rewrite !qfE (mulmxA A) mulmxV // mul1mx dotC.
apply: pA; apply: contraNneq h => e.
by rewrite -[x](mulKVmx uA) e mulmx0.
Qed.

Lemma lle_refl n (A : 'M[R]_n) : lle A A. Proof. by rewrite /lle subrr; exact: psd0. Qed.
Lemma lle_trans n (A B C : 'M[R]_n) : lle A B -> lle B C -> lle A C.
Proof. by rewrite /lle => h h'; have := psdD h h'; rewrite addrC addrA subrK. Qed.
(** diagonal entries are bounded by the Loewner order *)
Lemma lle_diag n (A B : 'M[R]_n) i : lle A B -> A i i <= B i i.
Proof.
move=> [_ /(_ (delta_mx i 0))]; rewrite qfE mulmxDl.
have -> : dot (delta_mx i 0) ((B *m delta_mx i 0) + (- A *m delta_mx i 0)) = B i i - A i i.
  by rewrite -mulmxDl /dot trmx_delta mulmxA -rowE -colE !mxE.
by rewrite subr_ge0.
Qed.
Lemma psd_diag n (A : 'M[R]_n) i : psd A -> 0 <= A i i.
Proof.
move=> h; have h' : lle 0 A by rewrite /lle subr0.
by have := lle_diag i h'; rewrite mxE.
Qed.

(** Cauchy-Schwarz for psd matrices: a vector in the kernel of the form is in the kernel of A *)
Lemma psd_kernel n (A : 'M[R]_n) x : psd A -> qf A x = 0 -> A *m x = 0.
Proof.
move=> [sA pA] h0; apply/eqP; rewrite -dot_eq0; apply/eqP.
set y := A *m x; set b := dot y y; set c := qf A y.
have H t : 0 <= (1 + 1) * t * b + t * t * c.
  have := pA (x + t *: y); rewrite /qf bfDl !bfDr -/(qf A x) h0 add0r.
  rewrite !(bfZl, bfZr) (bf_sym x y sA) -/(qf A y) -/c.
  have -> : bf A y x = b by rewrite bfE.
  suff -> : (1 + 1) * t * b + t * t * c = t * b + (t * b + t * (t * c)) by [].
  by mcring R.
have b0 : 0 <= b by exact: dot_ge0.
apply/eqP; move: b0; rewrite le_eqVlt => /orP [/eqP <-//|b0].
have c0 : 0 <= c by exact: pA.
have c1 : 0 < c + 1 by rewrite ltr_paddl ?ltr01.
have := H (- (b / (c + 1))).
have -> : (1 + 1) * - (b / (c + 1)) * b + (- (b / (c + 1))) * (- (b / (c + 1))) * c
        = - ((b / (c + 1)) * (b / (c + 1)) * (c + 1 + 1)).
  by mcfield R; apply/eqP; rewrite gt_eqF.
have h2 : 0 < c + 1 + 1 by rewrite addr_gt0 ?ltr01.
by rewrite oppr_ge0 leNgt !mulr_gt0 // ?divr_gt0 // invr_gt0.
Qed.
End LinAlg.
