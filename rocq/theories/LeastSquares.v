(** Weighted least squares with possibly singular covariances: specification vocabulary and the two steps of a
    Kalman filter as minimisations (used by C97). *)
From mathcomp Require Import all_ssreflect all_algebra.
From Verif Require Import McRing LinAlg KF_Algebra.
Set Implicit Arguments.
Unset Strict Implicit.
Unset Printing Implicit Defensive.
Import GRing.Theory Num.Theory Order.TTheory.
Local Open Scope ring_scope.

Section Penalty.
Variable R : realFieldType.
Add Field Rfield : (mc_field R).

(** [penalty P d c]: c is the squared Mahalanobis distance of the deviation d from 0 under the covariance P, that is
    d^T P^-1 d; a deviation outside the range of a singular P has none *)
Definition penalty n (P : 'M[R]_n) (d : 'cV[R]_n) (c : R) : Prop := exists l, d = P *m l /\ c = qf P l.

Lemma penalty_pd n (P : 'M[R]_n) d c : pd P -> (penalty P d c <-> c = qf (invmx P) d).
Proof.
move=> hP; have u := pd_unit hP; have [hs _] := hP; split.
  case=> l [-> ->]; rewrite /qf /bf trmx_mul hs !mulmxA mulmxK //.
move=> ->; exists (invmx P *m d); split; first by rewrite mulKVmx.
by rewrite /qf /bf trmx_mul (sym_inv hs) !mulmxA mulmxKV.
Qed.
Lemma qf_eq n (P : 'M[R]_n) l l' : sym P -> P *m l = P *m l' -> qf P l = qf P l'.
Proof. by move=> hs e; rewrite !qfE e dot_mul hs e dotC. Qed.
Lemma penalty_uniq n (P : 'M[R]_n) d c c' : sym P -> penalty P d c -> penalty P d c' -> c = c'.
Proof. by move=> hs [l [e ->]] [l' [e' ->]]; apply: qf_eq => //; rewrite -e -e'. Qed.
Lemma penalty_ge0 n (P : 'M[R]_n) d c : psd P -> penalty P d c -> 0 <= c.
Proof. by move=> [_ h] [l [_ ->]]. Qed.
Lemma penalty_eq0 n (P : 'M[R]_n) d : psd P -> penalty P d 0 -> d = 0.
Proof. by move=> h [l [-> e]]; apply: psd_kernel. Qed.
Lemma penalty0 n (P : 'M[R]_n) : penalty P 0 0.
Proof. by exists 0; rewrite mulmx0 qfE mulmx0 dotE; split => //; rewrite big1 // => i _; rewrite mxE mul0r. Qed.

(** ranges by kernels *)
Lemma ker_range a b (M : 'M[R]_a) (N : 'M[R]_(a, b)) : (forall v : 'rV[R]_a, v *m M = 0 -> v *m N = 0) ->
  forall l : 'cV[R]_b, exists v : 'cV[R]_a, M *m v = N *m l.
Proof.
move=> h l; have : (N^T <= M^T)%MS.
  rewrite submxE; apply/eqP; apply: (can_inj (@trmxK _ _ _)); rewrite trmx0 trmx_mul trmxK.
  have z : (cokermx M^T)^T *m M = 0 by apply: (can_inj (@trmxK _ _ _)); rewrite trmx_mul trmxK mulmx_coker trmx0.
  by apply/row_matrixP => i; rewrite row_mul row0; apply: h; rewrite -row_mul z row0.
case/submxP => D eD; exists (D^T *m l); rewrite mulmxA; congr (_ *m _); apply: (can_inj (@trmxK _ _ _)).
by rewrite trmx_mul trmxK eD.
Qed.

(** minimising l^T P l + r^T W r + s^T X s over B P l + G W r + H X s = const *)
Section Sum3.
Variables (n a b c : nat) (P : 'M[R]_a) (W : 'M[R]_b) (X : 'M[R]_c) (A : 'M[R]_(n, a)) (G : 'M[R]_(n, b)) (H : 'M[R]_(n, c)).
Let S := A *m P *m A^T + G *m W *m G^T + H *m X *m H^T.
Hypotheses (pP : psd P) (pW : psd W) (pX : psd X).
Lemma sum3_ker (v : 'rV[R]_n) : v *m S = 0 -> [/\ v *m A *m P = 0, v *m G *m W = 0 & v *m H *m X = 0].
Proof.
move=> e; have q0 : qf P (A^T *m v^T) + qf W (G^T *m v^T) + qf X (H^T *m v^T) = 0.
  by rewrite -!qf_congr -!qfD /qf /bf trmxK -/S e mul0mx mxE.
have [sP hP] := pP; have [sW hW] := pW; have [sX hX] := pX.
have := q0 => /eqP; rewrite paddr_eq0 ?addr_ge0 // paddr_eq0 // => /andP [/andP [/eqP e1 /eqP e2] /eqP e3].
have k a' (Q : 'M[R]_a') (B : 'M[R]_(n, a')) : psd Q -> qf Q (B^T *m v^T) = 0 -> v *m B *m Q = 0.
  move=> pQ e0; have [sQ _] := pQ; apply: (can_inj (@trmxK _ _ _)); rewrite trmx0 !trmx_mul sQ.
  by rewrite (psd_kernel pQ).
by split; apply: k.
Qed.
Lemma sum3_min l r s : exists v, S *m v = A *m (P *m l) + G *m (W *m r) + H *m (X *m s) /\ qf S v <= qf P l + qf W r + qf X s.
Proof.
have [sP hP] := pP; have [sW hW] := pW; have [sX hX] := pX.
have [v ev] : exists v : 'cV[R]_n, S *m v = (row_mx (row_mx (A *m P) (G *m W)) (H *m X)) *m col_mx (col_mx l r) s.
  apply: ker_range => w /sum3_ker [e1 e2 e3].
  by rewrite !mul_mx_row !mulmxA e1 e2 e3 !row_mx0.
exists v; rewrite ev !mul_row_col !mulmxA; split => //.
set d := fun a' (x : 'cV[R]_a') (B : 'M[R]_(n, a')) => x - B^T *m v.
have dec a' (Q : 'M[R]_a') (B : 'M[R]_(n, a')) x : sym Q ->
   qf Q x = qf Q (d _ x B) + qf Q (B^T *m v) + (dot v (B *m (Q *m d _ x B)) + dot v (B *m (Q *m d _ x B))).
  move=> sQ; rewrite [dot v _]dot_mul -bfE.
  have e : x = d _ x B + B^T *m v by rewrite subrK.
  move: (d _ x B) e => y ->; rewrite /qf !bfDl !bfDr (bf_sym (B^T *m v) y sQ); mcring R.
rewrite (dec _ P A) // (dec _ W G) // (dec _ X H) //.
have -> : qf S v = qf P (A^T *m v) + qf W (G^T *m v) + qf X (H^T *m v) by rewrite !qfD !qf_congr.
have z : dot v (A *m (P *m d _ l A)) + dot v (G *m (W *m d _ r G)) + dot v (H *m (X *m d _ s H)) = 0.
  rewrite -!dotDr /d !mulmxBr.
  have -> : A *m (P *m l) - A *m (P *m (A^T *m v)) + (G *m (W *m r) - G *m (W *m (G^T *m v))) + (H *m (X *m s) - H *m (X *m (H^T *m v)))
     = (A *m (P *m l) + G *m (W *m r) + H *m (X *m s)) - S *m v.
    by rewrite /S !mulmxDl !mulmxA; mxgroup R.
  rewrite ev !mul_row_col !mulmxA subrr dotE big1 // => i _; by rewrite mxE mulr0.
have h := addr_ge0 (addr_ge0 (hP (d _ l A)) (hW (d _ r G))) (hX (d _ s H)).
rewrite -subr_ge0; apply: le_trans h _; rewrite le_eqVlt; apply/orP; left; apply/eqP.
move: z; set p1 := dot _ _; set p2 := dot _ _; set p3 := dot _ _ => z.
have -> : p3 = - (p1 + p2) by apply/eqP; rewrite eq_sym -subr_eq0 -opprD oppr_eq0; apply/eqP.
by mcring R.
Qed.
End Sum3.

(** a correction splits the penalty of e and of the residual d - C e *)
Section Corr.
Variables (n k : nat) (C : 'M[R]_(k, n)) (P : 'M[R]_n) (Q : 'M[R]_k).
Let S := innov P C Q.
Let K := gain P C Q.
Let P' := (1%:M - K *m C) *m P.
Hypotheses (pP : psd P) (pQ : psd Q) (uS : S \in unitmx).
Let sP : sym P. Proof. by case: pP. Qed.
Let sQ : sym Q. Proof. by case: pQ. Qed.
Let sS : sym S. Proof. exact: innov_sym. Qed.
Let sP' : sym P'. Proof. by case: (post_psd pP pQ uS). Qed.

Lemma corr_CK : C *m K = 1%:M - Q *m invmx S.
Proof.
rewrite /K /gain -/S mulmxA; have -> : C *m (P *m C^T) = S - Q by rewrite /S /innov addrK.
by rewrite mulmxBl mulmxV.
Qed.
Lemma corr_PC : P' *m C^T = K *m Q.
Proof.
have e : C *m (P *m C^T) = S - Q by rewrite /S /innov addrK.
have e2 : P *m C^T = K *m S by rewrite /K gainS.
by rewrite /P' mulmxBl mulmxBl mul1mx -[K *m C *m P *m C^T]mulmxA -[K *m C *m _]mulmxA e e2 mulmxBr opprB addrC subrK.
Qed.
Lemma corr_CP : C *m P' = Q *m K^T.
Proof. by have := congr1 trmx corr_PC; rewrite trmx_mul (trmx_mul K Q) trmxK (sP' : P'^T = P') (sQ : Q^T = Q). Qed.

Lemma corr_forward l r (d : 'cV[R]_k) : d - C *m (P *m l) = Q *m r ->
  exists m, P' *m m = P *m l - K *m d /\ qf P l + qf Q r = qf P' m + qf (invmx S) d.
Proof.
move=> er; exists (l - C^T *m r).
have e1 : P' *m (l - C^T *m r) = P *m l - K *m d.
  rewrite mulmxBr mulmxA corr_PC -mulmxA -er mulmxBr /P' mulmxBl mulmxBl mul1mx !mulmxA; mxgroup R.
split => //; rewrite [qf P' _]qfE e1 !qfE.
have si := sym_inv sS.
have dB p (x y z : 'cV[R]_p) : dot (x - y) z = dot x z - dot y z by rewrite dotDl -scaleN1r dotZl mulN1r.
have dBr p (x y z : 'cV[R]_p) : dot z (x - y) = dot z x - dot z y by rewrite !(dotC z) dB.
have e2 : dot l (K *m d) = dot (C *m (P *m l)) (invmx S *m d).
  by rewrite /K /gain -/S -!mulmxA dot_mul sP dot_mul trmxK.
have e3 : dot (C^T *m r) (P *m l) = dot r (C *m (P *m l)) by rewrite [RHS]dot_mul.
have e4 : dot (C^T *m r) (K *m d) = dot r d - dot (Q *m r) (invmx S *m d).
  by rewrite -dot_mul mulmxA corr_CK mulmxBl mul1mx dBr -mulmxA [dot r (Q *m _)]dot_mul sQ.
rewrite dB !dBr e2 e3 e4 -er !dBr !dB.
set a := dot l _; set b := dot r d; set c := dot r _; set e := dot d _; set f := dot _ (invmx S *m d).
by move: a b c e f => a b c e f; mcring R.
Qed.
Lemma corr_back m (d : 'cV[R]_k) : exists l r, P *m l = P' *m m + K *m d /\ d - C *m (P *m l) = Q *m r.
Proof.
exists ((1%:M - C^T *m K^T) *m m + C^T *m (invmx S *m d)), (invmx S *m d - K^T *m m).
have t : (1%:M - K *m C)^T = 1%:M - C^T *m K^T by rewrite linearB /= trmx1 trmx_mul.
have e : P *m ((1%:M - C^T *m K^T) *m m + C^T *m (invmx S *m d)) = P' *m m + K *m d.
  rewrite mulmxDr !mulmxA; congr (_ + _); congr (_ *m _); rewrite -[RHS](sP' : P'^T = P') /P' [in RHS]trmx_mul (sP : P^T = P).
  by rewrite t.
split => //; have e2 : C *m (P' *m m + K *m d) = Q *m (K^T *m m) + (d - Q *m (invmx S *m d)).
  rewrite mulmxDr; congr (_ + _); first by rewrite [C *m _]mulmxA [Q *m _]mulmxA corr_CP.
  by rewrite [C *m _]mulmxA corr_CK mulmxBl mul1mx [Q *m (_ *m _)]mulmxA.
by rewrite e e2 mulmxBr; mxgroup R.
Qed.
End Corr.
End Penalty.
