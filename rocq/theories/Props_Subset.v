(** C34, C35: sub-vector and sub-matrix access (data_subset_utilities). *)
From Coq Require Import List Arith Bool Lia.
From Verif Require Import Outcome Subset.
Import ListNotations.

Section C34.
Variable A : Type.
Variable zero : A.
Variable junk : nat -> nat -> A.   (* whatever uninitialised memory holds *)
Variable fuel : nat.
Hypothesis enough_fuel : word <= fuel.

(** what a correct write of [subset] to the positions [rm] x [cm] of [full] must produce *)
Definition written2 (subset full result : mat A) (rm cm : list nat) : Prop :=
  rows result = rows full /\ cols result = cols full /\
  (forall k l, k < length rm -> l < length cm -> at_ result (nth k rm 0) (nth l cm 0) = at_ subset k l) /\
  (forall i j, i < rows full -> j < cols full -> ~ (In i rm /\ In j cm) -> at_ result i j = at_ full i j).
Definition written1 (subset full result : vec A) (map : list nat) : Prop :=
  vsize result = vsize full /\
  (forall k, k < length map -> vat result (nth k map 0) = vat subset k) /\
  (forall i, i < vsize full -> ~ In i map -> vat result i = vat full i).
Definition extracted2 (x result : mat A) (rm cm : list nat) : Prop :=
  rows result = length rm /\ cols result = length cm /\
  forall k l, k < length rm -> l < length cm -> at_ result k l = at_ x (nth k rm 0) (nth l cm 0).
Definition extracted1 (x result : vec A) (map : list nat) : Prop :=
  vsize result = length map /\ forall k, k < length map -> vat result k = vat x (nth k map 0).

(** *** the individual functions *)
Theorem C34_get_vector : forall x map, vsize x < word -> validMap map (vsize x) ->
  exists s, getSubset A junk fuel x map = Ok s /\ extracted1 x s (allOr map (vsize x)).
Proof.
  intros x map Hx HV. pose proof (valid_length _ _ HV).
  destruct (getSubset_spec A junk fuel x map) as (s & E & Hs & Hat); [lia|lia|apply HV|].
  exists s. split; auto. split; auto. intros k Hk. apply Hat. lia.
Qed.

Theorem C34_put_vector : forall subset full map, vsize full < word -> validMap map (vsize full) ->
  vsize subset = length (allOr map (vsize full)) ->
  exists f, convertSubsetToFull A fuel subset full map = Ok f /\ written1 subset full f (allOr map (vsize full)).
Proof.
  intros subset full map Hx HV Hs. pose proof (valid_length _ _ HV). destruct map as [|a m].
  - exists subset. simpl in *. rewrite seq_length in Hs. split; auto. split; auto. split.
    + intros k. rewrite seq_length. intros Hk. rewrite seq_nth; auto.
    + intros i Hi Hn. destruct Hn. apply in_seq. lia.
  - simpl in Hs. destruct (scatter_spec A fuel subset full (a :: m)) as (f & E & H1 & H2 & H3); auto; try lia; [discriminate|].
    exists f. split; [exact E|]. split; auto.
Qed.

Theorem C34_zeroed_vector : forall subset map n, n < word -> validMap map n -> vsize subset = length (allOr map n) ->
  exists f, convertSubsetToFullZeroed A zero fuel subset map n = Ok f /\
            written1 subset (mkVec n (fun _ => zero)) f (allOr map n).
Proof.
  intros subset map n Hx HV Hs. pose proof (valid_length _ _ HV). destruct map as [|a m].
  - exists subset. simpl in *. rewrite seq_length in Hs. split; auto. split; auto. split.
    + intros k. rewrite seq_length. intros Hk. rewrite seq_nth; auto.
    + intros i Hi Hn. destruct Hn. apply in_seq. cbn in *. lia.
  - simpl in Hs. destruct (scatter_spec A fuel subset (mkVec n (fun _ => zero)) (a :: m)) as (f & E & H1 & H2 & H3); auto; try (cbn in *; lia); [discriminate|].
    exists f. split; [exact E|]. split; auto.
Qed.

Lemma dims_rm (rm : list nat) n : validMap rm n -> n < word ->
  u16 (match rm with [] => n | _ => length rm end) = length (allOr rm n) /\ length (allOr rm n) < word.
Proof.
  intros HV Hn. pose proof (valid_length _ _ HV). unfold u16. destruct rm; cbn [allOr] in *; rewrite ?seq_length, Nat.mod_small; lia.
Qed.

Theorem C34_get_matrix : forall x rm cm, rows x < word -> cols x < word -> validMap rm (rows x) -> validMap cm (cols x) ->
  exists s, getSubsetRC A junk fuel x rm cm = Ok s /\ extracted2 x s (allOr rm (rows x)) (allOr cm (cols x)).
Proof.
  intros x rm cm Hr Hc HVr HVc. destruct (dims_rm rm _ HVr Hr) as (Er & Lr). destruct (dims_rm cm _ HVc Hc) as (Ec & Lc).
  assert (Hcase : (rm = [] /\ cm = []) \/ (rm <> [] \/ cm <> [])) by (destruct rm, cm; intuition discriminate).
  destruct Hcase as [(-> & ->)|Hne].
  { exists x. simpl. split; auto. split; [rewrite seq_length; auto|]. split; [rewrite seq_length; auto|].
    intros k l. rewrite !seq_length. intros Hk Hl. rewrite !seq_nth; auto. }
  destruct (gather2_spec A fuel x (allOr rm (rows x)) (allOr cm (cols x)) (idx rm) (idx cm)
         (mkMat (length (allOr rm (rows x))) (length (allOr cm (cols x))) junk)) as (s & E & H1 & H2 & H3); auto; try lia;
       try (intros; apply idx_allOr; auto); try (apply valid_allOr; auto).
  exists s. split; [|repeat split; auto]. unfold getSubsetRC. cbv zeta. rewrite Er, Ec.
  destruct rm, cm; try exact E. destruct Hne as [[]|[]]; reflexivity.
Qed.

Lemma scatter_rc subset full rm cm : rows full < word -> cols full < word ->
  validMap rm (rows full) -> validMap cm (cols full) ->
  rows subset = length (allOr rm (rows full)) -> cols subset = length (allOr cm (cols full)) ->
  exists f, (match rm, cm with
  | [], [] => Ok subset
  | _, _ =>
    let r := u16 (match rm with [] => rows full | _ => length rm end) in
    let c := u16 (match cm with [] => cols full | _ => length cm end) in
    loop16 fuel r 0 (fun i f => loop16 fuel c 0 (fun j f =>
      let* k := idx rm i in let* l := idx cm j in
      let* a := mget A subset i j in mset A f k l a) f) full
  end) = Ok f /\ written2 subset full f (allOr rm (rows full)) (allOr cm (cols full)).
Proof.
  intros Hr Hc HVr HVc Sr Sc. destruct (dims_rm rm _ HVr Hr) as (Er & Lr). destruct (dims_rm cm _ HVc Hc) as (Ec & Lc).
  assert (Hcase : (rm = [] /\ cm = []) \/ (rm <> [] \/ cm <> [])) by (destruct rm, cm; intuition discriminate).
  destruct Hcase as [(-> & ->)|Hne].
  { exists subset. simpl in *. rewrite !seq_length in *. split; auto. split; [auto|]. split; [auto|]. split.
    - intros k l. rewrite !seq_length. intros Hk Hl. rewrite !seq_nth; auto.
    - intros i j Hi Hj Hn. destruct Hn. rewrite !in_seq. lia. }
  destruct (scatter2_spec A fuel subset full (allOr rm (rows full)) (allOr cm (cols full)) (idx rm) (idx cm)) as (s & E & H1 & H2 & H3 & H4);
       auto; try lia; try (intros; apply idx_allOr; auto); try (apply valid_allOr; auto).
  exists s. split; [|repeat split; auto]. cbv zeta. rewrite Er, Ec.
  destruct rm, cm; try exact E. destruct Hne as [[]|[]]; reflexivity.
Qed.

Theorem C34_put_matrix : forall subset full rm cm, rows full < word -> cols full < word ->
  validMap rm (rows full) -> validMap cm (cols full) ->
  rows subset = length (allOr rm (rows full)) -> cols subset = length (allOr cm (cols full)) ->
  exists f, convertSubsetToFullRC A fuel subset full rm cm = Ok f /\
            written2 subset full f (allOr rm (rows full)) (allOr cm (cols full)).
Proof. intros. apply scatter_rc; auto. Qed.

Theorem C34_zeroed_matrix : forall subset rm cm m n, m < word -> n < word -> validMap rm m -> validMap cm n ->
  rows subset = length (allOr rm m) -> cols subset = length (allOr cm n) ->
  exists f, convertSubsetToFullZeroedRC A zero fuel subset rm cm m n = Ok f /\
            written2 subset (mkMat m n (fun _ _ => zero)) f (allOr rm m) (allOr cm n).
Proof. intros. apply (scatter_rc subset (mkMat m n (fun _ _ => zero)) rm cm); auto. Qed.

(** the versions with one index list are those with twice the same list *)
Theorem C34_square_versions : forall x subset full map, length map < word ->
  getSubsetSq A junk fuel x map = getSubsetRC A junk fuel x map map
  /\ convertSubsetToFullSq A fuel subset full map = convertSubsetToFullRC A fuel subset full map map
  /\ forall m, convertSubsetToFullZeroedSq A zero fuel subset map m = convertSubsetToFullZeroedRC A zero fuel subset map map m m.
Proof.
  intros x subset full map Hm. destruct map as [|a map]; [auto|].
  assert (E : u16 (length (a :: map)) = length (a :: map)) by (apply Nat.mod_small; auto).
  unfold getSubsetSq, getSubsetRC, convertSubsetToFullSq, convertSubsetToFullRC, convertSubsetToFullZeroedSq, convertSubsetToFullZeroedRC.
  cbv zeta. rewrite E. auto.
Qed.

(** *** round trips *)
Theorem C34_roundtrip_vector : forall subset full map, vsize full < word -> validMap map (vsize full) ->
  vsize subset = length (allOr map (vsize full)) ->
  exists f s, convertSubsetToFull A fuel subset full map = Ok f /\ getSubset A junk fuel f map = Ok s /\ veq s subset.
Proof.
  intros subset full map Hx HV Hs. destruct (C34_put_vector subset full map Hx HV Hs) as (f & Ef & F1 & F2 & F3).
  destruct (C34_get_vector f map) as (s & Es & S1 & S2); rewrite ?F1; auto.
  exists f, s. repeat split; auto; rewrite F1 in S1, S2; [congruence|].
  intros i Hi. rewrite S1 in Hi. rewrite S2, F2; auto.
Qed.

Theorem C34_roundtrip_matrix : forall subset full rm cm, rows full < word -> cols full < word ->
  validMap rm (rows full) -> validMap cm (cols full) ->
  rows subset = length (allOr rm (rows full)) -> cols subset = length (allOr cm (cols full)) ->
  exists f s, convertSubsetToFullRC A fuel subset full rm cm = Ok f /\ getSubsetRC A junk fuel f rm cm = Ok s /\ meq s subset.
Proof.
  intros subset full rm cm Hr Hc HVr HVc Sr Sc.
  destruct (C34_put_matrix subset full rm cm Hr Hc HVr HVc Sr Sc) as (f & Ef & F1 & F2 & F3 & F4).
  destruct (C34_get_matrix f rm cm) as (s & Es & S1 & S2 & S3); rewrite ?F1, ?F2; auto.
  exists f, s. rewrite F1 in S1, S3. rewrite F2 in S2, S3. repeat split; auto; try congruence.
  intros i j Hi Hj. rewrite S1 in Hi. rewrite S2 in Hj. rewrite S3, F3; auto.
Qed.

Theorem C34_write_back_vector : forall x map, vsize x < word -> validMap map (vsize x) ->
  exists s f, getSubset A junk fuel x map = Ok s /\ convertSubsetToFull A fuel s x map = Ok f /\ veq f x.
Proof.
  intros x map Hx HV. destruct (C34_get_vector x map Hx HV) as (s & Es & S1 & S2).
  destruct (C34_put_vector s x map Hx HV S1) as (f & Ef & F1 & F2 & F3).
  exists s, f. repeat split; auto. intros i Hi. rewrite F1 in Hi.
  destruct (in_dec Nat.eq_dec i (allOr map (vsize x))) as [Hin|Hn]; [|auto].
  destruct (In_nth _ _ 0 Hin) as (k & Hk & <-). rewrite F2, S2; auto.
Qed.

Theorem C34_write_back_matrix : forall x rm cm, rows x < word -> cols x < word -> validMap rm (rows x) -> validMap cm (cols x) ->
  exists s f, getSubsetRC A junk fuel x rm cm = Ok s /\ convertSubsetToFullRC A fuel s x rm cm = Ok f /\ meq f x.
Proof.
  intros x rm cm Hr Hc HVr HVc. destruct (C34_get_matrix x rm cm Hr Hc HVr HVc) as (s & Es & S1 & S2 & S3).
  destruct (C34_put_matrix s x rm cm Hr Hc HVr HVc S1 S2) as (f & Ef & F1 & F2 & F3 & F4).
  exists s, f. repeat split; auto. intros i j Hi Hj. rewrite F1 in Hi. rewrite F2 in Hj.
  destruct (in_dec Nat.eq_dec i (allOr rm (rows x))) as [Hin|Hn]; [|apply F4; auto; tauto].
  destruct (in_dec Nat.eq_dec j (allOr cm (cols x))) as [Hin'|Hn]; [|apply F4; auto; tauto].
  destruct (In_nth _ _ 0 Hin) as (k & Hk & <-). destruct (In_nth _ _ 0 Hin') as (l & Hl & <-). rewrite F3, S3; auto.
Qed.
End C34.

(** Witnesses: a 4-vector with the map (3, 1) and a 3x4 matrix with rows (2, 0), all columns *)
Example C34_witness_vector :
  exists f, convertSubsetToFull nat 9 (mkVec 2 (fun i => 10 + i)) (mkVec 4 (fun i => i)) [3; 1] = Ok f
    /\ map (vat f) [0; 1; 2; 3] = [0; 11; 2; 10] /\ validMap [3; 1] 4.
Proof.
  eexists. split; [reflexivity|]. split; [reflexivity|].
  split; [repeat constructor; simpl; intuition lia|repeat constructor].
Qed.
Example C34_witness_matrix :
  exists f, convertSubsetToFullRC nat 9 (mkMat 2 4 (fun i j => 100 + 10 * i + j)) (mkMat 3 4 (fun i j => 10 * i + j)) [2; 0] [] = Ok f
    /\ map (fun i => map (at_ f i) [0; 1; 2; 3]) [0; 1; 2] = [[110; 111; 112; 113]; [10; 11; 12; 13]; [100; 101; 102; 103]].
Proof. eexists. split; reflexivity. Qed.

(** C35: the functions terminate on every map.  False at 65536 entries (uint16_t counters). *)
Definition terminates {A} (call : nat -> outcome A) : Prop := exists fuel, call fuel <> Ub ub_diverges.
Definition C35_claim : Prop := forall (x : vec nat) (map : list nat),
  Forall (fun i => i < vsize x) map -> terminates (fun fuel => getSubset nat (fun _ _ => 0) fuel x map).

Lemma in_mod_range (map : list nat) i : word <= length map -> i < word -> i < length map.
Proof. lia. Qed.

(** every call with 65536 or more valid indices runs forever *)
Theorem C35_get_diverges : forall A junk (x : vec A) map, Forall (fun i => i < vsize x) map -> word <= length map ->
  forall fuel, getSubset A junk fuel x map = Ub ub_diverges.
Proof.
  intros A junk x map HF Hl fuel. destruct map as [|a m]; [simpl in Hl; exfalso; assert (word <> 0) by exact word_nz; lia|].
  remember (a :: m) as map eqn:Em.
  transitivity (loop16 fuel (length map) 0 (fun i s =>
      let* k := nthm map i in let* a := vget A x k in vset A s i a) (mkVec (length map) (junk 0))); [subst; reflexivity|].
  apply (loop16_diverges (fun s => vsize s = length map)); auto.
  - intros i s Hi Hs. rewrite Forall_forall in HF. rewrite nthm_ok by lia. cbn [obind].
    rewrite vget_ok by (apply HF, nth_In; lia). cbn [obind]. rewrite vset_ok by lia. eexists. split; [reflexivity|]. exact Hs.
  - assert (word <> 0) by exact word_nz. lia.
Qed.
Theorem C35_put_diverges : forall A (subset full : vec A) map, Forall (fun i => i < vsize full) map -> word <= length map ->
  vsize subset = length map -> forall fuel, convertSubsetToFull A fuel subset full map = Ub ub_diverges.
Proof.
  intros A subset full map HF Hl Hs fuel. destruct map as [|a m]; [simpl in Hl; exfalso; assert (word <> 0) by exact word_nz; lia|].
  remember (a :: m) as map eqn:Em.
  transitivity (loop16 fuel (length map) 0 (fun i f =>
           let* k := nthm map i in let* a := vget A subset i in vset A f k a) full); [subst; reflexivity|].
  apply (loop16_diverges (fun s => vsize s = vsize full)); auto.
  - intros i s Hi Hsz. rewrite Forall_forall in HF. rewrite nthm_ok by lia. cbn [obind].
    rewrite vget_ok by lia. cbn [obind]. rewrite vset_ok by (rewrite Hsz; apply HF, nth_In; lia). eexists. split; [reflexivity|]. exact Hsz.
  - assert (word <> 0) by exact word_nz. lia.
Qed.

Theorem C35_refuted : ~ C35_claim.
Proof.
  intros H. destruct (H (mkVec 1 (fun _ => 0)) (repeat 0 (word))) as (fuel & Hf).
  - apply Forall_forall. intros i Hi. apply repeat_spec in Hi. subst. simpl. auto.
  - apply Hf. apply C35_get_diverges; [|rewrite repeat_length; auto].
    apply Forall_forall. intros i Hi. apply repeat_spec in Hi. subst. simpl. auto.
Qed.

(** what holds: with fewer than 65536 entries every function terminates, also on invalid indices;
    the versions with separate row and column maps always do *)
Lemma bind_nd {A B} (x : outcome A) (f : A -> outcome B) :
  x <> Ub ub_diverges -> (forall a, f a <> Ub ub_diverges) -> obind x f <> Ub ub_diverges.
Proof. destruct x as [a|c]; simpl; auto. intros H _ E. injection E as ->. congruence. Qed.
Lemma nthm_nd map i : nthm map i <> Ub ub_diverges. Proof. unfold nthm. destruct nth_error; discriminate. Qed.
Lemma idx_nd map i : idx map i <> Ub ub_diverges. Proof. destruct map; [discriminate|apply nthm_nd]. Qed.
Lemma vget_nd A x i : vget A x i <> Ub ub_diverges. Proof. unfold vget. destruct (_ <? _); discriminate. Qed.
Lemma vset_nd A x i a : vset A x i a <> Ub ub_diverges. Proof. unfold vset. destruct (_ <? _); discriminate. Qed.
Lemma mget_nd A x i j : mget A x i j <> Ub ub_diverges. Proof. unfold mget. destruct (_ && _); discriminate. Qed.
Lemma mset_nd A x i j a : mset A x i j a <> Ub ub_diverges. Proof. unfold mset. destruct (_ && _); discriminate. Qed.
Ltac nd := repeat (first [apply nthm_nd | apply idx_nd | apply vget_nd | apply vset_nd | apply mget_nd | apply mset_nd
                         | apply bind_nd; [|intros] ]).
Lemma u16_lt n : u16 n < word.
Proof. apply Nat.mod_upper_bound. exact word_nz. Qed.

Theorem C35_short_maps_partial : forall A (zero : A) junk (x s : vec A) (y t : mat A) map n, length map < word ->
  forall fuel, word <= fuel ->
    getSubset A junk fuel x map <> Ub ub_diverges /\ getSubsetSq A junk fuel y map <> Ub ub_diverges
    /\ convertSubsetToFull A fuel s x map <> Ub ub_diverges /\ convertSubsetToFullSq A fuel t y map <> Ub ub_diverges
    /\ convertSubsetToFullZeroed A zero fuel s map n <> Ub ub_diverges /\ convertSubsetToFullZeroedSq A zero fuel t map n <> Ub ub_diverges.
Proof.
  intros A zero junk x s y t map n Hl fuel Hf. destruct map as [|a m]; [repeat split; discriminate|].
  unfold getSubset, getSubsetSq, convertSubsetToFull, convertSubsetToFullSq, convertSubsetToFullZeroed, convertSubsetToFullZeroedSq.
  repeat split; apply loop16_ends; try lia; intros; try (apply loop16_ends; try lia; intros); nd; simpl in *; lia.
Qed.

Theorem C35_row_column_maps_partial : forall A (zero : A) junk (y t : mat A) rm cm m n,
  forall fuel, word <= fuel ->
    getSubsetRC A junk fuel y rm cm <> Ub ub_diverges
    /\ convertSubsetToFullRC A fuel t y rm cm <> Ub ub_diverges
    /\ convertSubsetToFullZeroedRC A zero fuel t rm cm m n <> Ub ub_diverges.
Proof.
  intros A zero junk y t rm cm m n fuel Hf.
  assert (U : forall k, u16 k < fuel) by (intros k; pose proof (u16_lt k); lia).
  unfold getSubsetRC, convertSubsetToFullRC, convertSubsetToFullZeroedRC.
  repeat split; destruct rm, cm; try discriminate; cbv zeta;
    apply loop16_ends; auto using u16_lt; intros; apply loop16_ends; auto using u16_lt; intros; nd.
Qed.

(** ... but with 65536 rows they silently do nothing: the row count becomes 0 *)
Theorem C35_truncated_row_map : forall A junk (y : mat A) rm cm fuel, length rm = word -> 0 < fuel ->
  exists s, getSubsetRC A junk fuel y rm cm = Ok s /\ rows s = 0.
Proof.
  intros A junk y rm cm fuel Hl Hf. assert (word <> 0) by exact word_nz.
  destruct rm as [|a rm]; [simpl in Hl; congruence|].
  assert (E : u16 (length (a :: rm)) = 0) by (unfold u16; rewrite Hl; apply Nat.mod_same; auto).
  destruct fuel as [|f]; [lia|]. unfold getSubsetRC. cbv zeta. rewrite E. cbn [loop16]. eexists. split; reflexivity.
Qed.
