(** C52: a UKFVS whose system model's active states are changed after the sigma point parameters
    were set (which happens only in the constructor and in setSigmaPointParameters). *)
From mathcomp Require Import all_ssreflect all_algebra.
From mathcomp Require Import zify.
From Verif Require Import Outcome McRing LinAlg KF_Model UKF_Model UKF_Chol UKF_Lemmas Props_UKF Props_UKFRun.
Set Implicit Arguments.
Unset Strict Implicit.
Unset Printing Implicit Defensive.
Import GRing.Theory Num.Theory Order.TTheory.
Local Open Scope ring_scope.

(** ** The loop with a wrong number of columns *)
Section Loop.
Variables (C Obj : Type) (N : nat).
Variables (hi lo : Obj -> 'I_N -> outcome (Obj * C)).
Hypothesis th : forall o i, exists o1 y, hi o i = Ok (o1, y).
Hypothesis tl : forall o i, exists o1 y, lo o i = Ok (o1, y).

Lemma wr_cases (c : seq (option C)) i y :
  (wr c i y = Ub ub_oob /\ (size c <= i)%N) \/ (exists c', wr c i y = Ok c' /\ (i < size c)%N /\ size c' = size c).
Proof.
rewrite /wr; case: ifP => h; last by left; split => //; rewrite leqNgt h.
right; eexists; split; first reflexivity; split => //.
by rewrite size_set_nth; apply/maxn_idPr.
Qed.

Lemma fold_grow l (o : Obj) (c : seq (option C)) :
  ofold (body hi lo) l (o, c) = Ub ub_oob \/ (forall i, i \in l -> (i + 1 + N < size c)%N).
Proof.
elim: l o c => [|i l IH] o c; first by right.
rewrite /= {1}/body /=; have [o1 [yh ->]] := th o i; rewrite /=.
have [[-> _]|[c1 [-> [_ s1]]]] := wr_cases c (i + 1) yh; first by left.
rewrite /=; have [o2 [yl ->]] := tl o1 i; rewrite /=.
have [[-> _]|[c2 [-> [h2 s2]]]] := wr_cases c1 (i + 1 + N) yl; first by left.
rewrite /=; have [->|h] := IH o2 c2; first by left.
right=> j; rewrite inE => /orP[/eqP ->|/h]; first by rewrite -s1.
by rewrite s2 s1.
Qed.
Lemma loop_grow (o : Obj) (c : seq (option C)) : (0 < N)%N -> (size c < 2 * N + 1)%N ->
  sigma_loop hi lo (o, c) = Ub ub_oob.
Proof.
move=> n0 hc; rewrite /sigma_loop; have [//|h] := fold_grow (enum 'I_N) o c.
have lt : (N.-1 < N)%N by rewrite prednK.
have := h (Ordinal lt) (mem_enum _ _); move: hc n0; clear; rewrite /=; lia.
Qed.

Lemma fold_shrink l (o : Obj) (c : seq (option C)) k : (2 * N < k)%N -> (k < size c)%N -> nth None c k = None ->
  exists o' c', ofold (body hi lo) l (o, c) = Ok (o', c') /\ size c' = size c /\ nth None c' k = None.
Proof.
move=> hk; elim: l o c => [|i l IH] o c hs hn /=; first by exists o, c.
have hi1 := ltn_ord i.
rewrite {1}/body /=; have [o1 [yh ->]] := th o i; rewrite /=.
rewrite wr_ok /=; last by move: hk hs hi1; clear; lia.
have s1 : size (set_nth None c (i + 1) (Some yh)) = size c.
  by rewrite size_set_nth; apply/maxn_idPr; move: hk hs hi1; clear; lia.
have [o2 [yl ->]] := tl o1 i; rewrite /= wr_ok ?s1 /=; last by move: hk hs hi1; clear; lia.
have s2 : size (set_nth None (set_nth None c (i + 1) (Some yh)) (i + 1 + N) (Some yl)) = size c.
  by rewrite size_set_nth s1; apply/maxn_idPr; move: hk hs hi1; clear; lia.
have [||o' [c' [e [s' n']]]] := IH o2 (set_nth None (set_nth None c (i + 1) (Some yh)) (i + 1 + N) (Some yl)).
- by rewrite s2.
- rewrite nth_set_nth /= ifN; last by move: hk hs hi1; clear; lia.
  by rewrite nth_set_nth /= ifN //; move: hk hs hi1; clear; lia.
by exists o', c'; rewrite s' s2.
Qed.
Lemma rd_none (c : seq (option C)) k : (k < size c)%N -> nth None c k = None -> rd c = Ub ub_uninit.
Proof. by elim: c k => [|[y|] c IH] [|k] //= h1 h2; rewrite (IH k). Qed.
Lemma loop_shrink (o : Obj) y0 s : (N < s)%N ->
  exists o' c', sigma_loop hi lo (o, Some y0 :: nseq (2 * s) None) = Ok (o', c') /\ rd c' = Ub ub_uninit.
Proof.
move=> h; have [|||o' [c' [e [s' n']]]] := @fold_shrink (enum 'I_N) o (Some y0 :: nseq (2 * s) None) (2 * s)%N.
- by move: h; clear; lia.
- by rewrite /= size_nseq.
- have s0 : (0 < 2 * s)%N by move: h; clear; lia.
  by rewrite -[X in nth _ _ X]prednK // -[nth _ _ _]/(nth None (nseq (2 * s) None) (2 * s).-1) nth_nseq if_same.
exists o', c'; split => //; apply: (rd_none (k := (2 * s)%N)) n'.
by rewrite s' /= size_nseq.
Qed.
End Loop.

Section C52.
Variables (R : rcfType) (T : Type) (n m p k : nat).
Variables (S : NonlinSys R T n m p) (M : NonlinMeas R T n k).
Variables (alpha kappa beta : R) (par : UKFPar R) (a : nat).
(** the parameters were set when there were [a] active states *)
Hypothesis hpar : set_sigma a alpha kappa beta = Ok par.

(** ** now there are s: a prediction *)
Theorem C52_predict_grow_oob s c (f : 'I_s -> 'I_n) (fc : 'I_c -> 'I_m) (o : sm S) x P u dt :
  (forall (o : sm S) y, exists o', sm_upd o y u dt = Ok o') -> (a < s)%N ->
  ukfvs_predict_with f fc par o x P u dt = Ub ub_oob.
Proof.
move=> ht h; have [en _ _ _ _] := set_sigma_ok hpar.
rewrite /ukfvs_predict_with /sys_eval; have [o1 ->] := ht o x; rewrite /= en addn1 /= loop_grow //.
- by move=> o2 i; have [o3 ->] := ht o2 (sm_add o2 x (zput1 f (col i (llt_L ((s%:R + up_lambda par) *: get2 f f P))))); do 2 eexists.
- by move=> o2 i; have [o3 ->] := ht o2 (sm_sub o2 x (zput1 f (col i (llt_L ((s%:R + up_lambda par) *: get2 f f P))))); do 2 eexists.
- by apply: leq_ltn_trans h.
- by rewrite /= size_nseq; move: h; clear; lia.
Qed.
Theorem C52_predict_shrink_uninit s c (f : 'I_s -> 'I_n) (fc : 'I_c -> 'I_m) (o : sm S) x P u dt :
  (forall (o : sm S) y, exists o', sm_upd o y u dt = Ok o') -> (s < a)%N ->
  ukfvs_predict_with f fc par o x P u dt = Ub ub_uninit.
Proof.
move=> ht h; have [en _ _ _ _] := set_sigma_ok hpar.
rewrite /ukfvs_predict_with /sys_eval; have [o1 ->] := ht o x; rewrite /= en addn1 /=.
have [||o2 [c2 [-> /= ->]]] := @loop_shrink _ (sm S) s
   (fun (o : sm S) i => let* o1 := sm_upd o (sm_add o x (zput1 f (col i (llt_L ((s%:R + up_lambda par) *: get2 f f P))))) u dt in Ok (o1, ns_g o1))
   (fun (o : sm S) i => let* o1 := sm_upd o (sm_sub o x (zput1 f (col i (llt_L ((s%:R + up_lambda par) *: get2 f f P))))) u dt in Ok (o1, ns_g o1)) _ _ o1 (ns_g o1) a h => //.
- by move=> o2 i; have [o3 ->] := ht o2 (sm_add o2 x (zput1 f (col i (llt_L ((s%:R + up_lambda par) *: get2 f f P))))); do 2 eexists.
- by move=> o2 i; have [o3 ->] := ht o2 (sm_sub o2 x (zput1 f (col i (llt_L ((s%:R + up_lambda par) *: get2 f f P))))); do 2 eexists.
Qed.
Theorem C52_same_size_partial c (f : 'I_a -> 'I_n) (fc : 'I_c -> 'I_m) (o : sm S) x P u dt :
  (forall (o : sm S) y, exists o', sm_upd o y u dt = Ok o') ->
  exists o' x' P', ukfvs_predict_with f fc par o x P u dt = Ok (o', x', P').
Proof.
move=> ht; have [en _ _ _ _] := set_sigma_ok hpar.
rewrite /ukfvs_predict_with /sys_eval; have [o1 ->] := ht o x; rewrite /= en addn1 /=.
have [|||o2 [c2 el]] := @sigma_loop_total _ _ a
   (fun (o : sm S) i => let* o1 := sm_upd o (sm_add o x (zput1 f (col i (llt_L ((a%:R + up_lambda par) *: get2 f f P))))) u dt in Ok (o1, ns_g o1))
   (fun (o : sm S) i => let* o1 := sm_upd o (sm_sub o x (zput1 f (col i (llt_L ((a%:R + up_lambda par) *: get2 f f P))))) u dt in Ok (o1, ns_g o1)) (fun _ => True) o1 (ns_g o1).
- by [].
- by move=> o2 i _; have [o3 ->] := ht o2 (sm_add o2 x (zput1 f (col i (llt_L ((a%:R + up_lambda par) *: get2 f f P))))); do 2 eexists.
- by move=> o2 i _; have [o3 ->] := ht o2 (sm_sub o2 x (zput1 f (col i (llt_L ((a%:R + up_lambda par) *: get2 f f P))))); do 2 eexists.
rewrite el /=.
have [||//|yh [yl [-> _ _ _]]] := @sigma_loop_run _ _ a _ _ (fun _ => True) (fun _ _ => True) (fun _ _ => True) _ _ _ _ _ _ _ el => //.
by move=> /=; eexists _, _, _.
Qed.

(** ** a correction *)
Theorem C52_correct_grow_oob s c (f : 'I_s -> 'I_n) (fm : 'I_c -> 'I_k) (o : sm S) (q : mm M) x P z dt :
  (forall (q : mm M) y, exists q', mm_upd q y dt = Ok q') -> (a < s)%N ->
  ukfvs_correct_with f fm par o q x P z dt = Ub ub_oob.
Proof.
move=> ht h; have [en _ _ _ _] := set_sigma_ok hpar.
rewrite /ukfvs_correct_with /meas_eval; have [q1 ->] := ht q x; rewrite /= en addn1 /= loop_grow //.
- by move=> q2 i; have [q3 ->] := ht q2 (sm_add o x (zput1 f (col i (llt_L ((s%:R + up_lambda par) *: get2 f f P))))); do 2 eexists.
- by move=> q2 i; have [q3 ->] := ht q2 (sm_sub o x (zput1 f (col i (llt_L ((s%:R + up_lambda par) *: get2 f f P))))); do 2 eexists.
- by apply: leq_ltn_trans h.
- by rewrite /= size_nseq; move: h; clear; lia.
Qed.
Theorem C52_correct_shrink_uninit s c (f : 'I_s -> 'I_n) (fm : 'I_c -> 'I_k) (o : sm S) (q : mm M) x P z dt :
  (forall (q : mm M) y, exists q', mm_upd q y dt = Ok q') -> (s < a)%N ->
  ukfvs_correct_with f fm par o q x P z dt = Ub ub_uninit.
Proof.
move=> ht h; have [en _ _ _ _] := set_sigma_ok hpar.
rewrite /ukfvs_correct_with /meas_eval; have [q1 ->] := ht q x; rewrite /= en addn1 /=.
have [||q2 [c2 [-> /= ->]]] := @loop_shrink ('cV[R]_n * 'cV[R]_k)%type (mm M) s
   (fun (q : mm M) i => let* q1 := mm_upd q (sm_add o x (zput1 f (col i (llt_L ((s%:R + up_lambda par) *: get2 f f P))))) dt in Ok (q1, (sm_add o x (zput1 f (col i (llt_L ((s%:R + up_lambda par) *: get2 f f P)))), nm_h q1)))
   (fun (q : mm M) i => let* q1 := mm_upd q (sm_sub o x (zput1 f (col i (llt_L ((s%:R + up_lambda par) *: get2 f f P))))) dt in Ok (q1, (sm_sub o x (zput1 f (col i (llt_L ((s%:R + up_lambda par) *: get2 f f P)))), nm_h q1))) _ _ q1 (x, nm_h q1) a h => //.
- by move=> q2 i; have [q3 ->] := ht q2 (sm_add o x (zput1 f (col i (llt_L ((s%:R + up_lambda par) *: get2 f f P))))); do 2 eexists.
- by move=> q2 i; have [q3 ->] := ht q2 (sm_sub o x (zput1 f (col i (llt_L ((s%:R + up_lambda par) *: get2 f f P))))); do 2 eexists.
Qed.
End C52.

(** ** The property, and its refutation *)
(** a UKFVS is constructed for a system model object [o0]; before a prediction the object is [o],
    with other active states.  A prediction ends normally. *)
Definition C52_claim (R : rcfType) : Prop :=
  forall (T : Type) n m p (S : NonlinSys R T n m p) (o0 o : sm S) par x P u (dt : T),
    default_sys S -> (forall (o : sm S) y, exists o', sm_upd o y u dt = Ok o') ->
    uniq (sm_act o0) -> uniq (sm_act o) -> (0 < n)%N ->
    default_sigma R (size (eff (sm_act o0))) = Ok par ->
    exists r, ukfvs_predict par o x P u dt = Ok r.

(** a system of dimension 2 whose object is the list of its active states *)
Definition act_sys (R : rcfType) : NonlinSys R unit 2 1 1 :=
  @Build_NonlinSys R unit 2 1 1
   {| sm := seq 'I_2; sm_upd := fun o x _ _ => Ok o; sm_P := fun _ => 0; sm_V := fun _ => 0; sm_Rp := fun _ => 0;
      sm_Rc := fun _ => 0; sm_add := fun _ => @add_default R 2; sm_sub := fun _ => @sub_default R 2;
      sm_wsum := fun _ => @wsum_default R 2; sm_act := id; sm_actC := fun _ => [::] |} (fun o => 0) (fun o => 0).
Theorem C52_refuted (R : rcfType) : ~ C52_claim R.
Proof.
have [par [e _]] := C49_default R (n := 1) erefl.
move=> h; have [||r] := h _ _ _ _ (act_sys R) [:: 0] [:: 0; 1] par 0 1%:M 0 tt _ _ erefl erefl erefl e.
- by [].
- by move=> o y; exists o.
by rewrite /ukfvs_predict (C52_predict_grow_oob e) // => o y; exists o.
Qed.
(** ... and disabling a state: the uninitialised columns are read *)
Theorem C52_refuted_shrink (R : rcfType) : exists par, default_sigma R 2 = Ok par
  /\ ukfvs_predict (S := act_sys R) par [:: 0] 0 1%:M 0 tt = Ub ub_uninit.
Proof.
have [par [e _]] := C49_default R (n := 2) erefl; exists par; split => //.
by apply: (C52_predict_shrink_uninit e) => // o y; exists o.
Qed.

(** ** C77: exactness on affine models for every PSD covariance is false: Eigen's LLT stops at the
    first non-positive pivot, and its status is not checked (ukf.cpp:53-54). *)
Definition C77_claim (R : rcfType) : Prop :=
  forall (T : Type) n m p (S : NonlinSys R T n m p) (A : 'M[R]_n) b (o : sm S) par x P u (dt : T),
    default_sys S -> default_sigma R n = Ok par ->
    (forall (o : sm S) y, exists o', sm_upd o y u dt = Ok o' /\ ns_g o' = A *m y + b
       /\ sm_P o' *m sm_Rp o' *m (sm_P o')^T + sm_V o' *m sm_Rc o' *m (sm_V o')^T = 0) ->
    psd P ->
    exists o', ukf_predict par o x P u dt = Ok (o', A *m x + b, A *m P *m A^T).

Lemma llt_stop (R : rcfType) n (A : 'M[R]_n.+1) : A 0 0 <= 0 ->
  llt_L A = \matrix_(i, j) if (j <= i)%N then A i j else 0.
Proof.
move=> h; rewrite /llt_L; have -> // : llt_loop A (enum 'I_n.+1) = A.
by rewrite enum_ordSl /= /llt_pivot big1 ?subr0 ?h // => j.
Qed.

(** covariance diag(0, 4): the prediction of the identity model with the default parameters gives
    variance 16 * 2e-6 instead of 4 *)
Definition id_sys (R : rcfType) := fn_sys unit (fun y : 'cV[R]_2 => y) (fun _ => 1%:M) (0 : 'M[R]_(2, 1)) (0 : 'M[R]_(2, 1)) 0 [::] [::].
Definition diag04 (R : rcfType) : 'M[R]_2 := \matrix_(i, j) (4%:R *+ ((i == 1) && (j == 1))).
Lemma diag04_psd (R : rcfType) : psd (diag04 R).
Proof.
have -> : diag04 R = (2%:R *: delta_mx 1 0 : 'cV[R]_2) *m (2%:R *: delta_mx 1 0)^T; last exact: psd_outer.
apply/matrixP => i j; rewrite !mxE big_ord1 !mxE eqxx !andbT mulrACA -natrM /=.
by case: (i == 1); case: (j == 1); rewrite /= ?mulr1 ?mulr0 ?mul0r.
Qed.
Section C77.
Variable R : rcfType.
Add Field Rfield : (mc_field R).
Theorem C77_wrong_variance (o : sm (id_sys R)) x u : exists par o' x' P',
  default_sigma R 2 = Ok par /\ ukf_predict par o x (diag04 R) u tt = Ok (o', x', P') /\ P' 1 1 = 32%:R * (1 / 1000%:R) ^+ 2.
Proof.
have [hc _] := @default_ok R 2 erefl.
have [|par [hs _]] := @C49_weights R 2 (1 / 1000%:R) 0 2%:R; first by rewrite lt0r_neq0.
exists par; have dS : default_sys (id_sys R) by [].
have [||o' [x' [P' e]]] := @C51_predict_defined _ _ _ _ _ (id_sys R) _ _ _ _ hs o x (diag04 R) u tt (fun _ => True) => //.
  by move=> o0 y _; eexists.
exists o', x', P'; split => //; split => //.
have [||o1 [yh [yl [[<-] qh ql _ [_ ->]]]]] := @predict_shape _ _ _ _ _ _ dS _ _ _ _ hs _ _ _ _ _ _ _ _ (fun _ => True) (fun _ => True) (fun y g => g = y) _ _ e => //.
  by move=> o2 y o3 _ [<-].
have [_ cE nz _ _] := set_sigma_ok hs.
rewrite /noise /= !mul0mx addr0 add0r /=.
set c := 2%:R + _ in qh ql nz cE *; set L := llt_L _ in qh ql.
have eh i : yh i - x = col i L by rewrite qh addrC addrA addNr add0r.
have el i : yl i - x = - col i L by rewrite ql addrC addrA addNr add0r.
have -> : \sum_i (yh i - x + (yl i - x)) = 0 by apply: big1 => i _; rewrite eh el subrr.
rewrite scaler0 mul0mx scaler0 addr0.
have LE : L = \matrix_(i, j) if (j <= i)%N then (c *: diag04 R) i j else 0 by apply: llt_stop; rewrite !mxE mulr0.
have -> : \sum_i ((yh i - x) *m (yh i - x)^T + (yl i - x) *m (yl i - x)^T) = 2%:R *: (L *m L^T).
  apply/matrixP => i j; rewrite summxE !mxE mulr_sumr; apply: eq_bigr => l _; rewrite eh el !mxE !big_ord1 !mxE.
  by rewrite mulrNN mulr_natl mulr2n.
have LL : (L *m L^T) 1 1 = (c * 4%:R) ^+ 2.
  by rewrite LE mxE !big_ord_recl big_ord0 !mxE /= !mulr0 add0r addr0 expr2.
rewrite scalerA mxE LL cE addr0.
have n2 : (2%:R : R) != 0 by rewrite pnatr_eq0.
have n1 : (1000%:R : R) != 0 by rewrite pnatr_eq0.
have -> : (32%:R : R) = 2%:R * (4%:R * 4%:R) by rewrite -!natrM.
have n3 : (1 + 1 : R) != 0 by [].
by set k := 1000%:R in n1 *; set l := 4%:R; mcfield R; split; apply/eqP.
Qed.
Theorem C77_refuted : ~ C77_claim R.
Proof.
move=> h; have [par [o' [x' [P' [hs [e v]]]]]] := @C77_wrong_variance (0, 0) 0 0.
have [||o2] := h _ _ _ _ (id_sys R) 1%:M 0 (0, 0) par 0 (diag04 R) 0 tt _ hs _ (diag04_psd R).
- by [].
- by move=> o y; eexists; split; [reflexivity|]; rewrite /= mul1mx addr0 !mul0mx addr0.
rewrite e => -[_ _ E]; move: v; rewrite E mul1mx trmx1 mulmx1 mxE /= mulr1n => /eqP.
have t0 : (0 : R) <= 1 / 1000%:R by rewrite divr_ge0 ?ler01 ?ler0n.
have t1 : 1 / 1000%:R <= 1 / 4%:R :> R by rewrite ler_pmul2l ?ltr01 // lef_pinv ?posrE ?ltr0n // ler_nat.
have t2 : (1 / 1000%:R) ^+ 2 <= (1 / 4%:R) ^+ 2 :> R by rewrite ler_sqr ?nnegrE // (le_trans t0).
have h4 : 32%:R * (1 / 4%:R) ^+ 2 = 2%:R :> R.
  have n4 : (4%:R : R) != 0 by rewrite pnatr_eq0.
  have -> : (32%:R : R) = 2%:R * (4%:R * 4%:R) by rewrite -!natrM.
  by rewrite expr2 !mul1r -mulrA mulrACA divff // mulr1 mulr1.
have : 32%:R * (1 / 1000%:R) ^+ 2 <= 2%:R :> R by rewrite -h4 ler_pmul2l // ltr0n.
by move=> hl /eqP he; move: hl; rewrite -he ler_nat.
Qed.
End C77.

(** ** C78: the noise of a UKF prediction is not that of the model at the estimate: P() and V() are
    read after the loop, when the model was last updated at the last sigma point (ukf.cpp:75-80) *)
Definition C78_claim (R : rcfType) : Prop :=
  forall (T : Type) n m p (S : NonlinSys R T n m p) (A : 'M[R]_n) b (o o1 : sm S) par x P u (dt : T),
    default_sys S -> default_sigma R n = Ok par ->
    (forall (o : sm S) y, exists o', sm_upd o y u dt = Ok o' /\ ns_g o' = A *m y + b) -> pd P ->
    sm_upd o x u dt = Ok o1 ->
    exists o', ukf_predict par o x P u dt =
      Ok (o', A *m x + b, A *m P *m A^T + sm_P o1 *m sm_Rp o1 *m (sm_P o1)^T + sm_V o1 *m sm_Rc o1 *m (sm_V o1)^T).
(** the control acts in proportion to the state: V(y) = y *)
Definition prop_sys (R : rcfType) : NonlinSys R unit 1 1 1 :=
  @Build_NonlinSys R unit 1 1 1
   {| sm := 'M[R]_1; sm_upd := fun _ x _ _ => Ok x; sm_P := fun _ => 0; sm_V := fun o => o; sm_Rp := fun _ => 0;
      sm_Rc := fun _ => 1%:M; sm_add := fun _ => @add_default R 1; sm_sub := fun _ => @sub_default R 1;
      sm_wsum := fun _ => @wsum_default R 1; sm_act := fun _ => [::]; sm_actC := fun _ => [::] |} (fun o => o) (fun o => 1%:M).
Section C78.
Variable R : rcfType.
Lemma prop_last par (x P u : 'M[R]_1) o' x' P' alpha kappa beta : set_sigma 1 alpha kappa beta = Ok par ->
  ukf_predict (S := prop_sys R) par 0 x P u tt = Ok (o', x', P') -> o' = x - col 0 (llt_L ((1%:R + up_lambda par) *: P)).
Proof.
move=> hs; rewrite /ukf_predict /= (wr0 hs) /= /sigma_loop enum_ordSl enum_ord0 /=.
by move=> [<-].
Qed.
Theorem C78_refuted : ~ C78_claim R.
Proof.
have [hc hb] := @default_ok R 1 erefl.
have [|par [hs _]] := @C49_weights R 1 (1 / 1000%:R) 0 2%:R; first by rewrite lt0r_neq0.
have dS : default_sys (prop_sys R) by [].
move=> h; have [|o' e] := h _ _ _ _ (prop_sys R) 1%:M 0 0 0 par 0 1%:M 0 tt dS hs _ (pd1 _ _) erefl.
  by move=> o y; eexists; split; [reflexivity|]; rewrite mul1mx addr0.
have := prop_last hs e; set c := 1%:R + _; set L := llt_L _ => oE.
have [|o2 [_ e2]] := @C50_predict _ _ _ _ _ _ dS _ _ _ _ hs 1%:M 0 (fun _ => True) 0 0 1%:M 0 tt I _ (pd1 _ _) hc.
  by move=> o y _; eexists; split; [reflexivity|split => //]; rewrite mul1mx addr0.
have [_ cE _ _ _] := set_sigma_ok hs.
have pL : pd (c *: (1%:M : 'M[R]_1)) by apply: pdZ; [rewrite /c cE|exact: pd1].
have LL := llt_correct pL; rewrite -/L in LL.
have Lc : col 0 L = L by apply/matrixP => i j; rewrite !mxE ord1 [j]ord1.
rewrite Lc sub0r in oE; move: e2; rewrite e /= => -[<-]; rewrite oE => E.
have : (- L) *m (- L)^T = 0.
  by move/addrI: E; rewrite (mulmx1 (- L)) !mul0mx => <-.
rewrite linearN /= mulNmx mulmxN opprK LL => /matrixP/(_ 0 0); rewrite !mxE eqxx mulr1 => /eqP.
by rewrite /c cE; move/eqP => z; move: hc; rewrite z ltxx.
Qed.
End C78.
