(** C118 for the variable-set filters: one active measurement that reads one active state directly *)
From Coq Require Import ZArith Reals Lra Lia Bool List Arith.
From Flocq Require Import Core IEEE754.BinarySingleNaN.
From Verif Require Import Outcome FB_Model FloatTime AngleFloat KF_Float MatFloat LuFloat Props_MatFloat Props_MatFloatC Subset Props_Subset VSFloat Props_VSFloat Props_Direct.
Import ListNotations.
Open Scope R_scope.

(** among the active states s the row of the measurement is 1 at q and 0 elsewhere (the entries of inactive
    states do not matter); sizes up to 2^900 and a noise that is not vanishing *)
Definition direct_active (s : list nat) (q : nat) (row : nat -> f64) (cov : fm) (noise : f64) : Prop := In q s /\
  (forall i, In i s -> finite (row i) = true /\ val (row i) = if Nat.eqb i q then 1 else 0) /\
  (forall i j, In i s -> In j s -> finite (at_ cov i j) = true) /\ (forall i, In i s -> Rabs (val (at_ cov i q)) <= bpow radix2 900) /\ 0 <= val (at_ cov q q) /\
  finite noise = true /\ bpow radix2 (-900) <= val noise <= bpow radix2 900.
(** what C118 says of the state q before and after *)
Definition moved_directly (q : nat) (x x' : fv) (z : f64) (cov cov' : fm) (noise : f64) : Prop :=
  finite (at_ cov' q q) = true /\ 0 <= val (at_ cov' q q) <= val (at_ cov q q) /\
  (let p := val (at_ cov q q) in let r := val noise in Rabs (val (at_ cov' q q) - p * r / (p + r)) <= bpow radix2 (-50) * p + bpow radix2 (-1075)) /\
  finite (vat x' q) = true /\ (let t := rnd64 (val (vat x q) + rnd64 (val z - val (vat x q))) in Rmin (val (vat x q)) t <= val (vat x' q) <= Rmax (val (vat x q)) t).
Lemma nodup_all map n : validMap map n -> NoDup (allOr map n) /\ Forall (fun i => (i < n)%nat) (allOr map n).
Proof. intros [H1 H2]. destruct map as [|m map]; cbn [allOr]; [split; [apply seq_NoDup|]|split; assumption]. rewrite Forall_forall. intros i Hi. apply in_seq in Hi. lia. Qed.
Lemma direct_pick s q row cov Q C c0 noise : NoDup s -> direct_active s q row cov noise -> (forall i, In i s -> at_ C c0 i = row i) -> at_ Q c0 c0 = noise ->
  exists a, (a < length s)%nat /\ nth a s 0%nat = q /\ direct_input (length s) a (pick [c0] s C) (pick s s cov) (pick [c0] [c0] Q).
Proof.
  intros ND (Iq & HR & HF & HB & HP & FN & HN) EC EQ. destruct (In_nth s q 0%nat Iq) as (a & Ha & Na). exists a. split; [exact Ha|]. split; [exact Na|].
  assert (In' : forall l, (l < length s)%nat -> In (nth l s 0%nat) s) by (intros l Hl; apply nth_In, Hl).
  unfold direct_input, reads, finite_mat, pick. cbn [nth]. rewrite Na, EQ. split; [exact Ha|]. split.
  - intros l Hl. rewrite EC by (apply In', Hl). destruct (HR _ (In' l Hl)) as [F V]. split; [exact F|]. rewrite V.
    destruct (Nat.eqb_spec (nth l s 0%nat) q) as [E|D]; destruct (Nat.eqb_spec l a) as [E'|D']; try reflexivity.
    + exfalso. apply D'. rewrite <- Na in E. exact (proj1 (NoDup_nth s 0%nat) ND l a Hl Ha E).
    + exfalso. apply D. rewrite E'. exact Na.
  - split; [intros i k Hi Hk; apply HF; apply In'; assumption|]. split; [intros l Hl; apply HB, In', Hl|]. split; [exact HP|]. split; assumption.
Qed.
(** C118 (KalmanFilterVS): correct with one active measurement; the other states and covariances are as C111 says *)
Theorem C118_kfvs junk fuel n k acts actz C Q x z cov r c0 q : (word <= fuel)%nat ->
  (n < word)%nat -> (k < word)%nat -> validMap acts n -> validMap actz k -> sized k n C -> square k Q -> vsize x = n -> vsize z = k -> square n cov ->
  kfvs_correct junk fuel inverse64 acts actz n k C Q x z cov r ->
  let s := allOr acts n in allOr actz k = [c0] -> direct_active s q (at_ C c0) cov (at_ Q c0 c0) ->
  (forall i, In i s -> finite (vat x i) = true) -> Rabs (val (vat x q)) <= bpow radix2 900 -> finite (vat z c0) = true -> Rabs (val (vat z c0)) <= bpow radix2 900 ->
  exists x' cov', r = Ok (x', cov') /\ moved_directly q x x' (vat z c0) cov cov' (at_ Q c0 c0) /\
    (forall i j, (i < n)%nat -> (j < n)%nat -> ~ (In i s /\ In j s) -> at_ cov' i j = at_ cov i j).
Proof.
  intros Fu Hn Hk HVs HVc SC SQ Sx Sz Sc R s Ec D Fx Bx Fz Bz. destruct (nodup_all acts n HVs) as [ND _]. fold s in ND.
  destruct (C111_kfvs_correct junk fuel inverse64 Fu n k acts actz C Q x z cov r Hn Hk HVs HVc SC SQ Sx Sz Sc R) as (x' & cov' & S & inv & K & E & _ & _ & (_ & Un) & HS & HI & HK & HX & HP).
  fold s in Un, HS, HI, HK, HX, HP. rewrite Ec in HS, HI, HK, HX, HP. cbn [length] in HS, HI, HK, HX, HP.
  destruct (direct_pick s q (at_ C c0) cov Q C c0 (at_ Q c0 c0) ND D) as (a & Ha & Na & DI); [reflexivity|reflexivity|].
  assert (Run : correction1 (length s) (pick [c0] s C) (pick s s cov) (pick [c0] [c0] Q) K (pick s s cov')) by (exists S, inv; repeat (split; [assumption|]); assumption).
  exists x', cov'. split; [exact E|]. split; [|exact Un].
  destruct (C118_variance _ _ _ _ _ _ _ DI Run) as [V1 V2]. pose proof (C118_accuracy _ _ _ _ _ _ _ DI Run) as V3.
  destruct (C118_state_kf _ _ _ _ _ _ _ (pickv s x) (pickv [c0] z) (pickv s x') DI Run HX) as [X1 X2].
  - intros l Hl. apply Fx, nth_In, Hl.
  - exact Fz.
  - unfold pickv. rewrite Na. exact Bx.
  - exact Bz.
  - unfold pick, pickv in V1, V2, V3, X1, X2. cbn [nth] in V3, X2. rewrite Na in V1, V2, V3, X1, X2. split; [exact V1|]. split; [exact V2|]. split; [exact V3|]. split; [exact X1|exact X2].
Qed.
(** C118 (EKFVS): h predicts the state itself *)
Theorem C118_ekfvs junk fuel n k acts actz h H Q x z cov r c0 q : (word <= fuel)%nat ->
  (n < word)%nat -> (k < word)%nat -> validMap acts n -> validMap actz k -> vsize h = k -> sized k n H -> square k Q -> vsize x = n -> vsize z = k -> square n cov ->
  ekfvs_correct junk fuel inverse64 acts actz n h H Q x z cov r ->
  let s := allOr acts n in allOr actz k = [c0] -> direct_active s q (at_ H c0) cov (at_ Q c0 c0) ->
  vat h c0 = vat x q -> finite (vat x q) = true -> Rabs (val (vat x q)) <= bpow radix2 900 -> finite (vat z c0) = true -> Rabs (val (vat z c0)) <= bpow radix2 900 ->
  exists x' cov', r = Ok (x', cov') /\ moved_directly q x x' (vat z c0) cov cov' (at_ Q c0 c0) /\
    (forall i j, (i < n)%nat -> (j < n)%nat -> ~ (In i s /\ In j s) -> at_ cov' i j = at_ cov i j).
Proof.
  intros Fu Hn Hk HVs HVc Sh SH SQ Sx Sz Sc R s Ec D Eh Fx Bx Fz Bz. destruct (nodup_all acts n HVs) as [ND _]. fold s in ND.
  destruct (C111_ekfvs_correct junk fuel inverse64 Fu n k acts actz h H Q x z cov r Hn Hk HVs HVc Sh SH SQ Sx Sz Sc R) as (x' & cov' & S & inv & K & E & _ & _ & (_ & Un) & HS & HI & HK & HX & HP).
  fold s in Un, HS, HI, HK, HX, HP. rewrite Ec in HS, HI, HK, HX, HP. cbn [length] in HS, HI, HK, HX, HP.
  destruct (direct_pick s q (at_ H c0) cov Q H c0 (at_ Q c0 c0) ND D) as (a & Ha & Na & DI); [reflexivity|reflexivity|].
  assert (Run : correction1 (length s) (pick [c0] s H) (pick s s cov) (pick [c0] [c0] Q) K (pick s s cov')) by (exists S, inv; repeat (split; [assumption|]); assumption).
  exists x', cov'. split; [exact E|]. split; [|exact Un].
  destruct (C118_variance _ _ _ _ _ _ _ DI Run) as [V1 V2]. pose proof (C118_accuracy _ _ _ _ _ _ _ DI Run) as V3.
  destruct (C118_state_ekf _ _ _ _ _ _ _ (pickv s x) (pickv [c0] z) (pickv [c0] h) (pickv s x') DI Run HX) as [X1 X2].
  - unfold pickv. rewrite Na. exact Fx.
  - exact Fz.
  - unfold pickv. rewrite Na. exact Bx.
  - exact Bz.
  - unfold pickv. cbn [nth]. rewrite Na. exact Eh.
  - unfold pick, pickv in V1, V2, V3, X1, X2. cbn [nth] in V3, X2. rewrite Na in V1, V2, V3, X1, X2. split; [exact V1|]. split; [exact V2|]. split; [exact V3|]. split; [exact X1|exact X2].
Qed.
(** the hypotheses are met: of three states 2 and 0 are active, of two measurements 1; it reads state 0 (and the
    inactive state 1, five times) *)
Definition wd_H : fm := mkMat 2 3 (fun i j => match i, j with 1%nat, 0%nat => fone | 1%nat, 1%nat => fz 5 | 1%nat, _ => fzero | _, _ => fz 7 end).
Lemma inverse_exists S : exists I, inverse64 1 S I.
Proof.
  exists (fun _ _ => fdiv64 fone (S 0%nat 0%nat)), S, S, (fun i => i), (fun _ _ => fone). split; [|split].
  - split; [split; [intros i Hi; exact Hi|intros i k _ _ E; exact E]|]. split; [intros i k Hi; assert (i = 0%nat) as -> by lia; assert (k = 0%nat) as -> by lia; apply sum_one|intros i k Hi; lia].
  - intros i c Hi Hc. assert (i = 0%nat) as -> by lia. assert (c = 0%nat) as -> by lia. apply sum_one.
  - intros i c Hi Hc. assert (i = 0%nat) as -> by lia. exists fone. split; [apply sum_one|]. left. reflexivity.
Qed.
Example C118_vs_nonvacuous junk fuel : (word <= fuel)%nat -> validMap [2; 0]%nat 3 /\ validMap [1]%nat 2 /\
  direct_active (allOr [2; 0]%nat 3) 0 (at_ wd_H 1) (w_mat 3 3) (at_ (w_mat 2 2) 1 1) /\
  (exists r, kfvs_correct junk fuel inverse64 [2; 0]%nat [1]%nat 3 2 wd_H (w_mat 2 2) (w_vec 3) (w_vec 2) (w_mat 3 3) r) /\
  exists r, ekfvs_correct junk fuel inverse64 [2; 0]%nat [1]%nat 3 (w_vec 2) wd_H (w_mat 2 2) (w_vec 3) (w_vec 2) (w_mat 3 3) r.
Proof.
  intros Fu. assert (W : (3 < word)%nat) by (apply Nat.leb_le; vm_compute; reflexivity).
  assert (V1 : validMap [2; 0]%nat 3) by (split; repeat constructor; simpl; intuition lia). assert (V2 : validMap [1]%nat 2) by (split; repeat constructor; simpl; intuition lia).
  assert (B : forall e, (5 <= e)%Z -> 32 <= bpow radix2 e) by (intros e He; change 32 with (bpow radix2 5); apply bpow_le; exact He).
  split; [exact V1|]. split; [exact V2|]. split; [|split].
  - cbn [allOr]. split; [right; left; reflexivity|]. split; [|split; [|split; [|split; [|split]]]].
    + intros i [<-|[<-|[]]]; cbn [Nat.eqb wd_H at_]; (split; [reflexivity|]); [reflexivity|apply one_ok].
    + intros i k [<-|[<-|[]]] [<-|[<-|[]]]; vm_compute; reflexivity.
    + intros i [<-|[<-|[]]]; unfold w_mat; cbn [at_]; rewrite fz_val by (vm_compute; discriminate); pose proof (B 900%Z ltac:(lia)); rewrite Rabs_pos_eq by (apply IZR_le; vm_compute; discriminate);
        (apply Rle_trans with 32; [apply IZR_le; vm_compute; discriminate|assumption]).
    + unfold w_mat; cbn [at_]. rewrite fz_val by (vm_compute; discriminate). apply IZR_le; vm_compute; discriminate.
    + vm_compute; reflexivity.
    + unfold w_mat; cbn [at_]. rewrite fz_val by (vm_compute; discriminate). change (Z.of_nat (2 + 1 * 3 + 1)) with 6%Z. pose proof (B 900%Z ltac:(lia)). split; [|lra].
      apply Rle_trans with (bpow radix2 0); [apply bpow_le; lia|change (bpow radix2 0) with 1; lra].
  - apply C111_kfvs_correct_total; try assumption; try lia; try reflexivity; try (split; reflexivity). intros S. apply inverse_exists.
  - apply (C111_ekfvs_correct_total junk fuel inverse64 Fu 3 2); try assumption; try lia; try reflexivity; try (split; reflexivity). intros S. apply inverse_exists.
Qed.
