(** Reading and writing subsets of vectors and matrices, and the models of the active subsystem. *)
From mathcomp Require Import all_ssreflect all_algebra.
From Verif Require Import Outcome LinAlg KF_Model.
Set Implicit Arguments.
Unset Strict Implicit.
Unset Printing Implicit Defensive.
Import GRing.Theory.
Local Open Scope ring_scope.

Section Put.
Variable R : realFieldType.

Section One.
Variables (n s : nat) (f : 'I_s -> 'I_n).
Let step (y : 'cV[R]_s) (v : 'cV[R]_n) i : 'cV[R]_n := \col_j (if j == f i then y i 0 else v j 0).
Lemma put1_fold_out (y : 'cV[R]_s) j (l : seq 'I_s) v : (forall i, i \in l -> f i != j) ->
  foldl (step y) v l j 0 = v j 0.
Proof.
elim: l v => [|i l IH] v h //=; rewrite IH => [|k kl]; last by apply: h; rewrite inE kl orbT.
by rewrite mxE eq_sym (negbTE (h i _)) ?inE ?eqxx.
Qed.
Lemma put1_out (y : 'cV[R]_s) (x : 'cV[R]_n) j : (forall i, f i != j) -> put1 f y x j 0 = x j 0.
Proof. by move=> h; apply: put1_fold_out. Qed.
Hypothesis inj : injective f.
Lemma put1_fold_in (y : 'cV[R]_s) i (l : seq 'I_s) v : i \in l -> foldl (step y) v l (f i) 0 = y i 0.
Proof.
elim: l v => [|k l IH] v //=; rewrite inE; case: (boolP (i \in l)) => [il _|il /orP[/eqP e|//]]; first exact: IH.
rewrite -e put1_fold_out; first by rewrite mxE eqxx.
by move=> k' kl; apply: contraNneq il => /inj <-.
Qed.
Lemma put1_in (y : 'cV[R]_s) (x : 'cV[R]_n) i : put1 f y x (f i) 0 = y i 0.
Proof. by apply: put1_fold_in; rewrite mem_enum. Qed.
Lemma get_put1 (y : 'cV[R]_s) (x : 'cV[R]_n) : get1 f (put1 f y x) = y.
Proof. by apply/colP => i; rewrite mxE put1_in. Qed.
Lemma put_get1 (x : 'cV[R]_n) : put1 f (get1 f x) x = x.
Proof.
apply/colP => j; case: (boolP [exists i, f i == j]) => [/existsP[i /eqP <-]|/existsPn h]; first by rewrite put1_in mxE.
by rewrite put1_out.
Qed.
Lemma get_zput1 (y : 'cV[R]_s) : get1 f (zput1 f y) = y. Proof. exact: get_put1. Qed.
Lemma put1_add (y : 'cV[R]_s) (x : 'cV[R]_n) : x + zput1 f y = put1 f (get1 f x + y) x.
Proof.
apply/colP => j; rewrite mxE; case: (boolP [exists i, f i == j]) => [/existsP[i /eqP <-]|/existsPn h].
  by rewrite !put1_in !mxE.
by rewrite !put1_out // mxE addr0.
Qed.
Lemma put1_sub (y : 'cV[R]_s) (x : 'cV[R]_n) : x - zput1 f y = put1 f (get1 f x - y) x.
Proof.
apply/colP => j; rewrite mxE; case: (boolP [exists i, f i == j]) => [/existsP[i /eqP <-]|/existsPn h].
  by rewrite mxE !put1_in !mxE.
by rewrite mxE !put1_out // mxE subr0.
Qed.
End One.

Section Two.
Variables (n n' s s' : nat) (f : 'I_s -> 'I_n) (g : 'I_s' -> 'I_n').
Let step2 (y : 'M[R]_(s, s')) i (v : 'M[R]_(n, n')) j : 'M[R]_(n, n') := \matrix_(a, b) (if (a == f i) && (b == g j) then y i j else v a b).

Lemma row_out y i (l : seq 'I_s') v a b : (a != f i) || [forall j, g j != b] -> foldl (step2 y i) v l a b = v a b.
Proof.
move=> h; elim: l v => [|j l IH] v //=; rewrite IH mxE ifN //.
case/orP: h => [h|/forallP/(_ j) h]; first by rewrite (negbTE h).
by rewrite eq_sym in h; rewrite (negbTE h) andbF.
Qed.
Lemma put2_out (y : 'M[R]_(s, s')) (x : 'M[R]_(n, n')) a b : [forall i, f i != a] || [forall j, g j != b] -> put2 f g y x a b = x a b.
Proof.
rewrite /put2; elim: (enum 'I_s) x => [|i l IH] x h //=; rewrite IH //.
apply: row_out; case/orP: h => [/forallP/(_ i) h|->]; last by rewrite orbT.
by rewrite eq_sym h.
Qed.
Hypothesis (injf : injective f) (injg : injective g).
Lemma row_in y i (l : seq 'I_s') v j : j \in l -> foldl (step2 y i) v l (f i) (g j) = y i j.
Proof.
elim: l v => [|k l IH] v //=; rewrite inE; case: (boolP (j \in l)) => [jl _|jl /orP[/eqP <-|//]]; first exact: IH.
have : forall v, foldl (step2 y i) v l (f i) (g j) = v (f i) (g j).
  elim: l jl {IH} => [|k' l IH] //=; rewrite inE negb_or => /andP[jk jl] w; rewrite IH // mxE.
  by rewrite (inj_eq injg) (negbTE jk) andbF.
by move=> ->; rewrite mxE !eqxx.
Qed.
Lemma put2_in (y : 'M[R]_(s, s')) (x : 'M[R]_(n, n')) i j : put2 f g y x (f i) (g j) = y i j.
Proof.
rewrite /put2; have : i \in enum 'I_s by rewrite mem_enum.
elim: (enum 'I_s) x => [|k l IH] x //=; rewrite inE; case: (boolP (i \in l)) => [il _|il /orP[/eqP <-|//]]; first exact: IH.
have h v : foldl (fun (v : 'M[R]_(n, n')) i => foldl (step2 y i) v (enum 'I_s')) v l (f i) (g j) = v (f i) (g j).
  elim: l il v {IH} => [|k' l IH] //=; rewrite inE negb_or => /andP[ik il] w; rewrite IH //.
  by apply: row_out; rewrite (inj_eq injf) ik.
by rewrite h row_in // mem_enum.
Qed.
Lemma get_put2 (y : 'M[R]_(s, s')) (x : 'M[R]_(n, n')) : get2 f g (put2 f g y x) = y.
Proof. by apply/matrixP => i j; rewrite mxE put2_in. Qed.
End Two.

Lemma get1D n s (f : 'I_s -> 'I_n) (x y : 'cV[R]_n) : get1 f (x + y) = get1 f x + get1 f y.
Proof. by apply/colP => i; rewrite !mxE. Qed.
Lemma get1B n s (f : 'I_s -> 'I_n) (x y : 'cV[R]_n) : get1 f (x - y) = get1 f x - get1 f y.
Proof. by apply/colP => i; rewrite !mxE. Qed.
Lemma get1Z n s (f : 'I_s -> 'I_n) a (x : 'cV[R]_n) : get1 f (a *: x) = a *: get1 f x.
Proof. by apply/colP => i; rewrite !mxE. Qed.
Lemma get2_tr n n' s s' (f : 'I_s -> 'I_n) (g : 'I_s' -> 'I_n') (x : 'M[R]_(n, n')) : (get2 f g x)^T = get2 g f x^T.
Proof. by apply/matrixP => i j; rewrite !mxE. Qed.

(** the selection matrix *)
Definition sel n s (f : 'I_s -> 'I_n) : 'M[R]_(s, n) := \matrix_(i, j) (f i == j)%:R.
Lemma sel_mul n s (f : 'I_s -> 'I_n) k (A : 'M[R]_(n, k)) i j : (sel f *m A) i j = A (f i) j.
Proof.
rewrite mxE (bigD1 (f i)) //= mxE eqxx mul1r big1 ?addr0 // => l hl.
by rewrite mxE eq_sym (negbTE hl) mul0r.
Qed.
Lemma get2_sel n s s' (f : 'I_s -> 'I_n) (g : 'I_s' -> 'I_n) (P : 'M[R]_n) : get2 f g P = sel f *m P *m (sel g)^T.
Proof.
apply/matrixP => i j; rewrite [in RHS]mxE (bigD1 (g j)) //= sel_mul !mxE eqxx mulr1 big1 ?addr0 // => l hl.
by rewrite !mxE eq_sym (negbTE hl) mulr0.
Qed.
Lemma get2_psd n s (f : 'I_s -> 'I_n) (P : 'M[R]_n) : psd P -> psd (get2 f f P).
Proof. by rewrite get2_sel; exact: psd_congr. Qed.
(** distinct indices: principal submatrices of PD matrices are PD *)
Lemma get2_pd n s (f : 'I_s -> 'I_n) (P : 'M[R]_n) : injective f -> pd P -> pd (get2 f f P).
Proof.
move=> inj [sP hP]; rewrite get2_sel; split; first exact: sym_congr.
move=> x x0; rewrite qf_congr; apply: hP; apply: contraNneq x0 => e.
apply/eqP/colP => i; have /colP/(_ (f i)) := e; rewrite !mxE => {}e; rewrite -[RHS]e.
rewrite (bigD1 i) //= !mxE eqxx mul1r big1 ?addr0 // => l hl.
by rewrite !mxE (inj_eq inj) (negbTE hl) mul0r.
Qed.

(** all indices, in order *)
Lemma get1_id n (f : 'I_n -> 'I_n) : (forall i, f i = i :> nat) -> forall x : 'cV[R]_n, get1 f x = x.
Proof. by move=> h x; apply/colP => i; rewrite mxE (_ : f i = i) //; apply: val_inj; exact: h. Qed.
Lemma get2_id n n' (f : 'I_n -> 'I_n) (g : 'I_n' -> 'I_n') : (forall i, f i = i :> nat) -> (forall i, g i = i :> nat) -> forall x : 'M[R]_(n, n'), get2 f g x = x.
Proof.
move=> h h' x; apply/matrixP => i j; rewrite mxE.
have -> : f i = i by apply: val_inj; exact: h.
by have -> : g j = j by apply: val_inj; exact: h'.
Qed.
Lemma id_inj n (f : 'I_n -> 'I_n) : (forall i, f i = i :> nat) -> injective f.
Proof. by move=> h i j /(congr1 (@nat_of_ord n)); rewrite !h => /val_inj. Qed.
Lemma put1_id n (f : 'I_n -> 'I_n) : (forall i, f i = i :> nat) -> forall x y : 'cV[R]_n, put1 f y x = y.
Proof.
move=> h x y; apply/colP => i; have {1}-> : i = f i by apply: val_inj; rewrite /= h.
by rewrite put1_in //; exact: id_inj.
Qed.
Lemma put2_id n n' (f : 'I_n -> 'I_n) (g : 'I_n' -> 'I_n') : (forall i, f i = i :> nat) -> (forall i, g i = i :> nat) -> forall x y : 'M[R]_(n, n'), put2 f g y x = y.
Proof.
move=> h h' x y; apply/matrixP => i j; have {1}-> : i = f i by apply: val_inj; rewrite /= h.
have {1}-> : j = g j by apply: val_inj; rewrite /= h'.
by rewrite put2_in //; exact: id_inj.
Qed.

(** lists of indices *)
Lemma aix_inj n (l : seq 'I_n) : uniq l -> injective (@aix _ l).
Proof.
move=> u; have ue : uniq (eff l) by rewrite /eff; case: l u => [|a l] //; rewrite enum_uniq.
move=> i j; have d := aix i; rewrite /aix !(tnth_nth d) /= => /eqP.
by rewrite nth_uniq ?ltn_ord // => /eqP/val_inj.
Qed.
Lemma aix_mem n (l : seq 'I_n) i : @aix _ l i \in eff l.
Proof. exact: mem_tnth. Qed.
Lemma aix_out n (l : seq 'I_n) j : j \notin eff l -> forall i, @aix _ l i != j.
Proof. by move=> h i; apply: contraNneq h => <-; exact: aix_mem. Qed.
Lemma aix_id n (l : seq 'I_n) : eff l = enum 'I_n -> forall i, @aix _ l i = i :> nat.
Proof.
move=> e i; have hi : (i < n)%N by move: (ltn_ord i); rewrite {2}e size_enum_ord.
by rewrite /aix (tnth_nth (Ordinal hi)) /=; move: (nat_of_ord i) hi => k hk; rewrite e nth_enum_ord.
Qed.
Lemma eff_size n (l : seq 'I_n) : eff l = enum 'I_n -> size (eff l) = n.
Proof. by move=> ->; rewrite size_enum_ord. Qed.
End Put.
