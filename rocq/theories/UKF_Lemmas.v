(** The loop over the sigma points and the unscented transform with default vector operations. *)
From mathcomp Require Import all_ssreflect all_algebra.
From mathcomp Require Import zify.
From Verif Require Import Outcome McRing LinAlg KF_Model UKF_Model UKF_Chol.
Set Implicit Arguments.
Unset Strict Implicit.
Unset Printing Implicit Defensive.
Import GRing.Theory Num.Theory Order.TTheory.
Local Open Scope ring_scope.

(** ** The loop *)
Section Loop.
Variables (C Obj : Type) (N : nat).
Implicit Types (c : seq (option C)) (o : Obj).

Lemma wr_ok c i y : (i < size c)%N -> wr c i y = Ok (set_nth None c i (Some y)).
Proof. by rewrite /wr => ->. Qed.

(** columns of the sigma point matrix *)
Definition columns (y0 : C) (yh yl : 'I_N -> C) : seq C :=
  y0 :: [seq yh i | i <- enum 'I_N] ++ [seq yl i | i <- enum 'I_N].

Variables (hi lo : Obj -> 'I_N -> outcome (Obj * C)).
Variables (J : Obj -> Prop) (Qh Ql : 'I_N -> C -> Prop).

Definition body := fun (st : Obj * seq (option C)) i =>
    let* (o1, yh) := hi st.1 i in
    let* c1 := wr st.2 (i + 1) yh in
    let* (o2, yl) := lo o1 i in
    let* c2 := wr c1 (i + 1 + N) yl in
    Ok (o2, c2).

Lemma body_ok o c i o' c' : size c = (2 * N + 1)%N -> body (o, c) i = Ok (o', c') ->
  exists o1 yh yl, [/\ hi o i = Ok (o1, yh), lo o1 i = Ok (o', yl) &
    c' = set_nth None (set_nth None c (i + 1) (Some yh)) (i + 1 + N) (Some yl)].
Proof.
move=> sz; rewrite /body /=; case eh: (hi o i) => [[o1 yh]|//] /=.
rewrite wr_ok /=; last first.
  by rewrite sz ltn_add2r (leq_trans (ltn_ord i)) // mul2n -addnn leq_addr.
case el: (lo o1 i) => [[o2 yl]|//] /=.
rewrite wr_ok /=; first by move=> [<- <-]; exists o1, yh, yl.
rewrite size_set_nth sz leq_max; apply/orP; right.
by rewrite -addnA [(1 + N)%N]addnC addnA ltn_add2r mul2n -addnn ltn_add2r.
Qed.

(** what is written when the loop ends normally *)
Lemma sigma_loop_run o y0 o' c' :
  (forall o i o1 y, J o -> hi o i = Ok (o1, y) -> J o1 /\ Qh i y) ->
  (forall o i o1 y, J o -> lo o i = Ok (o1, y) -> J o1 /\ Ql i y) ->
  J o -> sigma_loop hi lo (o, Some y0 :: nseq (2 * N) None) = Ok (o', c') ->
  exists yh yl, [/\ rd c' = Ok (columns y0 yh yl), J o', forall i, Qh i (yh i) & forall i, Ql i (yl i)].
Proof.
move=> hh hl j0; rewrite /sigma_loop -/body.
set c0 := _ :: _.
have : size c0 = (2 * N + 1)%N by rewrite /= size_nseq addn1.
have : nth None c0 0 = Some y0 by [].
suff main k : (k <= N)%N -> forall (yh yl : 'I_N -> option C) o c,
   J o -> size c = (2 * N + 1)%N -> nth None c 0 = Some y0 ->
   (forall i : 'I_N, (i < k)%N -> exists y, [/\ nth None c (i + 1) = Some y & Qh i y]) ->
   (forall i : 'I_N, (i < k)%N -> exists y, [/\ nth None c (i + 1 + N) = Some y & Ql i y]) ->
   ofold body (drop k (enum 'I_N)) (o, c) = Ok (o', c') ->
   J o' /\ size c' = (2 * N + 1)%N /\ nth None c' 0 = Some y0 /\
   (forall i : 'I_N, exists y, [/\ nth None c' (i + 1) = Some y & Qh i y]) /\
   (forall i : 'I_N, exists y, [/\ nth None c' (i + 1 + N) = Some y & Ql i y]).
  move=> h0 sz; rewrite -[enum 'I_N]drop0 => e.
  have [||j1 [s1 [n0 [nh nl]]]] := main 0%N (leq0n _) (fun _ => None) (fun _ => None) o c0 j0 sz h0 _ _ e => //.
  have gen : forall c, size c = (2 * N + 1)%N -> (forall i, (i < size c)%N -> isSome (nth None c i)) ->
     forall d, rd c = Ok [seq odflt d y | y <- c].
    move=> c _; elim: c => [|[y|] c IH] h d //=; last by have := h 0%N (ltn0Sn _).
    by rewrite (IH _ d) // => i hi'; apply: (h i.+1).
  have all_some i : (i < size c')%N -> isSome (nth None c' i).
    rewrite s1; case: i => [|i] hi'; first by rewrite n0.
    have hi2 : (i < N + N)%N by move: hi'; rewrite addn1 ltnS mul2n -addnn.
    rewrite -(addn1 i); case: (ltnP i N) => [iN|Ni]; first by have [y [-> _]] := nh (Ordinal iN).
    have iN : (i - N < N)%N by rewrite ltn_subLR.
    have [y [e1 _]] := nl (Ordinal iN).
    by move: e1; rewrite /= addnAC subnK // => ->.
  exists (fun i => odflt y0 (nth None c' (i + 1))), (fun i => odflt y0 (nth None c' (i + 1 + N))); split => //.
  - rewrite (gen _ s1 all_some y0); congr Ok.
    apply: (@eq_from_nth _ y0).
      by rewrite /columns size_map s1 -cat1s !size_cat !size_map -!enumT size_enum_ord addnn -mul2n addnC.
    move=> i; rewrite size_map s1 => hi'; rewrite (nth_map None) ?s1 //.
    case: i hi' => [|i] hi'; first by rewrite n0.
    have hi2 : (i < N + N)%N by move: hi'; rewrite addn1 ltnS mul2n -addnn.
    rewrite /columns -[nth y0 (_ :: _) i.+1]/(nth y0 (_ ++ _) i) nth_cat size_map size_enum_ord.
    case: (ltnP i N) => [iN|Ni].
      rewrite (nth_map (Ordinal iN)) ?size_enum_ord //; congr (odflt _ (nth _ _ _)).
      by rewrite addn1 nth_enum_ord.
    have iN : (i - N < N)%N by rewrite ltn_subLR.
    rewrite (nth_map (Ordinal iN)) ?size_enum_ord //; congr (odflt _ (nth _ _ _)).
    by rewrite nth_enum_ord // addnAC subnK // addn1.
  - by move=> i; have [y [-> ]] := nh i.
  - by move=> i; have [y [-> ]] := nl i.
move e: (N - k)%N => r; elim: r k e => [|r IH] k e hk _ _ o1 c jo sz h0 h1 h2.
  have kN : k = N by apply/eqP; rewrite eqn_leq hk -subn_eq0 e.
  rewrite drop_oversize ?size_enum_ord ?kN //= => -[<- <-]; split => //; split => //; split => //.
  by split => i; [apply: h1|apply: h2]; rewrite kN.
have kN : (k < N)%N by rewrite -subn_gt0 e.
rewrite (drop_nth (Ordinal kN)) ?size_enum_ord //.
have -> : nth (Ordinal kN) (enum 'I_N) k = Ordinal kN by apply: val_inj; rewrite /= nth_enum_ord.
rewrite [ofold _ _ _]/=; case eb: (body (o1, c) (Ordinal kN)) => [[o2 c2]|//] /=.
have [o3 [yh [yl [eh el ec]]]] := body_ok sz eb.
have [j3 qh] := hh _ _ _ _ jo eh; have [j2 ql] := hl _ _ _ _ j3 el.
have nthE j : nth None c2 j = if j == (k + 1 + N)%N then Some yl else if j == (k + 1)%N then Some yh else nth None c j.
  by rewrite ec nth_set_nth /= nth_set_nth.
apply: (IH k.+1) => //; try by move=> ? ; exact: None.
- by rewrite subnS e.
- rewrite ec !size_set_nth sz; clear -kN; rewrite /=; lia.
- by rewrite nthE !addn1.
- move=> i; rewrite ltnS leq_eqVlt => /orP[/eqP ik|ik].
    have -> : i = Ordinal kN by apply: val_inj.
    exists yh; split => //; rewrite nthE eqxx /= ifN //; clear -kN; rewrite /=; lia.
  have [y [ey qy]] := h1 i ik; exists y; split => //; rewrite nthE !ifN //; clear -kN ik; rewrite /=; have := ltn_ord i; lia.
- move=> i; rewrite ltnS leq_eqVlt => /orP[/eqP ik|ik].
    have -> : i = Ordinal kN by apply: val_inj.
    by exists yl; split => //; rewrite nthE eqxx.
  have [y [ey qy]] := h2 i ik; exists y; split => //; rewrite nthE !ifN //; clear -kN ik; rewrite /=; have := ltn_ord i; lia.
Qed.

(** it ends normally if the models do *)
Lemma sigma_loop_total o y0 : J o ->
  (forall o i, J o -> exists o1 y, hi o i = Ok (o1, y) /\ J o1) -> (forall o i, J o -> exists o1 y, lo o i = Ok (o1, y) /\ J o1) ->
  exists o' c', sigma_loop hi lo (o, Some y0 :: nseq (2 * N) None) = Ok (o', c').
Proof.
move=> jo hh hl; rewrite /sigma_loop -/body.
have : size (Some y0 :: nseq (2 * N) None) = (2 * N + 1)%N by rewrite /= size_nseq addn1.
elim: (enum 'I_N) o jo (Some y0 :: _) => [|i l IH] o jo c sz /=; first by exists o, c.
have [o1 [yh [eh j1]]] := hh o i jo; have [o2 [yl [el j2]]] := hl o1 i j1.
have h1 : (i + 1 < size c)%N.
  by rewrite sz ltn_add2r (leq_trans (ltn_ord i)) // mul2n -addnn leq_addr.
have h2 : (i + 1 + N < (maxn (i + 1).+1 (size c)))%N.
  rewrite sz leq_max; apply/orP; right.
  by rewrite -addnA [(1 + N)%N]addnC addnA ltn_add2r mul2n -addnn ltn_add2r.
rewrite {1}/body /= eh /= wr_ok //= el /= wr_ok ?size_set_nth //=.
apply: IH => //; rewrite !size_set_nth; move: h1 h2; rewrite sz => h1 h2.
by rewrite (maxn_idPr h1) in h2 *; apply/maxn_idPr.
Qed.
End Loop.

(** ** Weighted sums over the columns *)
Section Sums.
Variables (R : rcfType).
Lemma foldl_sum (A : Type) (G : zmodType) (F : A -> G) l a :
  foldl (fun acc x => acc + F x) a l = a + \sum_(x <- l) F x.
Proof.
elim: l a => [|x l IH] a; first by rewrite big_nil addr0.
by rewrite /= IH big_cons addrA.
Qed.
Lemma zip_nseq (A B : Type) (w : A) (l : seq B) k : size l = k -> zip (nseq k w) l = map (pair w) l.
Proof. by elim: l k => [|y l IH] [|k] //= [/IH ->]. Qed.

Variables (C D : Type) (N : nat).
Lemma fold_columns (G : zmodType) (F : R * D -> G) (h : C -> D) a w0 w y0 (yh yl : 'I_N -> C) :
  foldl (fun acc x => acc + F x) a (zip (w0 :: nseq (2 * N) w) (map h (columns y0 yh yl)))
  = a + (F (w0, h y0) + \sum_i (F (w, h (yh i)) + F (w, h (yl i)))).
Proof.
have sz : size (map h ([seq yh i | i <- enum 'I_N] ++ [seq yl i | i <- enum 'I_N])) = (2 * N)%N.
  by rewrite size_map size_cat !size_map -!enumT size_enum_ord addnn -mul2n.
rewrite foldl_sum; congr (_ + _).
rewrite -[zip _ _]/((w0, h y0) :: zip _ (map h ([seq yh i | i <- enum 'I_N] ++ [seq yl i | i <- enum 'I_N]))).
rewrite big_cons zip_nseq // big_map big_map big_cat /= !big_map -!enumT !big_enum /= -big_split //.
Qed.
End Sums.

Section Default.
Variables (R : rcfType) (n k : nat) (N : nat).
Add Field Rfield : (mc_field R).

Lemma wsum_columns w0 w (y0 : 'cV[R]_n) (yh yl : 'I_N -> 'cV[R]_n) :
  wsum_default (w0 :: nseq (2 * N) w) (columns y0 yh yl) = w0 *: y0 + w *: \sum_i (yh i + yl i).
Proof.
have := @fold_columns R _ _ N _ (fun wx : R * 'cV[R]_n => wx.1 *: wx.2) id 0 w0 w y0 yh yl.
rewrite map_id /wsum_default => ->; rewrite add0r /= scaler_sumr; congr (_ + _).
by apply: eq_bigr => i _; rewrite scalerDr.
Qed.
Lemma wcov_columns (A : Type) (acc : 'M[R]_(n, k)) w0 w (f : A -> 'cV[R]_n) (g : A -> 'cV[R]_k) y0 (yh yl : 'I_N -> A) :
  wcov acc (w0 :: nseq (2 * N) w) [seq (f y, g y) | y <- columns y0 yh yl]
  = acc + (w0 *: (f y0 *m (g y0)^T) + w *: \sum_i (f (yh i) *m (g (yh i))^T + f (yl i) *m (g (yl i))^T)).
Proof.
rewrite /wcov (@fold_columns R _ _ N _ (fun wd : R * ('cV[R]_n * 'cV[R]_k) => (wd.1 *: wd.2.1) *m wd.2.2^T)) /=.
congr (_ + _); rewrite -scalemxAl; congr (_ + _); rewrite scaler_sumr.
by apply: eq_bigr => i _; rewrite scalerDr !scalemxAl.
Qed.
End Default.

(** ** The weights *)
Section Weights.
Variable R : rcfType.
Add Field Rfield : (mc_field R).
Variables (n : nat) (alpha kappa beta : R).
Let lam : R := alpha ^+ 2 * (n%:R + kappa) - n%:R.
Lemma set_sigma_ok par : set_sigma n alpha kappa beta = Ok par ->
  [/\ up_num par = (2 * n + 1)%N, n%:R + up_lambda par = alpha ^+ 2 * (n%:R + kappa), n%:R + up_lambda par != 0,
      up_wm par = (up_lambda par / (n%:R + up_lambda par)) :: nseq (2 * n) (1 / 2%:R / (n%:R + up_lambda par)) &
      up_wc par = (up_lambda par / (n%:R + up_lambda par) + 1 - alpha ^+ 2 + beta) :: nseq (2 * n) (1 / 2%:R / (n%:R + up_lambda par))].
Proof.
rewrite /set_sigma; case: ifP => // /negbT h [<-]; split => //=; try by rewrite addn1.
by rewrite addrC subrK.
Qed.
Lemma set_sigma_total : alpha ^+ 2 * (n%:R + kappa) != 0 -> exists par, set_sigma n alpha kappa beta = Ok par.
Proof. by move=> h; rewrite /set_sigma addrC subrK (negbTE h); eexists. Qed.
End Weights.
