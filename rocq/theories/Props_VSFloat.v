(** C111: the variable-set filters KalmanFilterVS and EKFVS in double arithmetic, with the code's
    sub-matrix functions. *)
From Coq Require Import ZArith Reals Lra Lia Bool List Arith.
From Flocq Require Import Core IEEE754.BinarySingleNaN.
From Verif Require Import Outcome FB_Model FloatTime AngleFloat KF_Float MatFloat Props_MatFloat Props_MatFloatC Subset Props_Subset VSFloat.
Import ListNotations.
Open Scope R_scope.

(** ** Specification *)
(** the rows s and columns c of M *)
Definition pick (s c : list nat) (M : fm) : fmat := fun a b => at_ M (nth a s 0%nat) (nth b c 0%nat).
Definition pickv (s : list nat) (v : fv) : fvec := fun a => vat v (nth a s 0%nat).
Definition square (n : nat) (M : fm) : Prop := rows M = n /\ cols M = n.
Definition sized (r c : nat) (M : fm) : Prop := rows M = r /\ cols M = c.
(** only the entries with both indices in s have changed, and those are S' *)
Definition block_written (n : nat) (s : list nat) (cov cov' : fm) : Prop :=
  square n cov' /\ forall i j, (i < n)%nat -> (j < n)%nat -> ~ (In i s /\ In j s) -> at_ cov' i j = at_ cov i j.

(** the same number (a negative zero may become a positive one) *)
Definition same (x y : f64) : Prop := x = y \/ (finite x = true /\ finite y = true /\ val x = 0 /\ val y = 0).

(** ** Lemmas *)
Lemma rbind_det {A B} (a : A) (f : A -> rel B) r : rbind (det (Ok a)) f r -> f a r.
Proof. intros [(c & H & _)|(a' & H & H')]; [discriminate H|]. injection H as <-. exact H'. Qed.
Lemma rbind_check {A B} b (m : rel A) (f : A -> rel B) r : b = true -> rbind (check b m) f r -> rbind m f r.
Proof. intros ->. exact (fun H => H). Qed.
Lemma rbind_ok {A B} (P : A -> Prop) (f : A -> rel B) r : rbind (fun r => exists a, r = Ok a /\ P a) f r -> exists a, P a /\ f a r.
Proof. intros [(c & (a & H & _) & _)|(a' & (a & H & Ha) & H')]; [discriminate H|]. injection H as <-. eauto. Qed.
Lemma pairs_ext n f f' g g' : (forall k, (k < n)%nat -> f k = f' k /\ g k = g' k) -> pairs n f g = pairs n f' g'.
Proof. intros H. unfold pairs. apply map_ext_in. intros k Hk. apply in_seq in Hk. destruct (H k ltac:(lia)) as [-> ->]. reflexivity. Qed.
Lemma product_ext r m c A A' B B' M : (forall i k, (i < r)%nat -> (k < m)%nat -> A i k = A' i k) -> (forall k j, (k < m)%nat -> (j < c)%nat -> B k j = B' k j) ->
  product r m c A B M -> product r m c A' B' M.
Proof. intros HA HB H i j Hi Hj. rewrite (pairs_ext m (A' i) (A i) (fun k => B' k j) (fun k => B k j)); [apply H; assumption|]. intros k Hk. split; symmetry; auto. Qed.

Section VS.
Variable junk : nat -> nat -> f64.
Variable fuel : nat.
Variable inverts : nat -> fmat -> fmat -> Prop.
Hypothesis enough_fuel : (word <= fuel)%nat.

Lemma get_sq x map n : square n x -> (n < word)%nat -> validMap map n ->
  exists s, getSubsetSq f64 junk fuel x map = Ok s /\ extracted2 f64 x s (allOr map n) (allOr map n).
Proof.
  intros [R C] Hn HV. pose proof (valid_length _ _ HV).
  destruct (C34_square_versions f64 fzero junk fuel x x x map ltac:(lia)) as (E & _ & _). rewrite E.
  destruct (C34_get_matrix f64 junk fuel enough_fuel x map map) as (s & Es & Hs); rewrite ?R, ?C; auto. rewrite R, C in Hs. eauto.
Qed.
Lemma get_rc x rm cm r c : sized r c x -> (r < word)%nat -> (c < word)%nat -> validMap rm r -> validMap cm c ->
  exists s, getSubsetRC f64 junk fuel x rm cm = Ok s /\ extracted2 f64 x s (allOr rm r) (allOr cm c).
Proof.
  intros [R C] Hr Hc HVr HVc. destruct (C34_get_matrix f64 junk fuel enough_fuel x rm cm) as (s & Es & Hs); rewrite ?R, ?C; auto. rewrite R, C in Hs. eauto.
Qed.
Lemma get_v x map n : vsize x = n -> (n < word)%nat -> validMap map n ->
  exists s, getSubset f64 junk fuel x map = Ok s /\ extracted1 f64 x s (allOr map n).
Proof. intros <- Hn HV. apply C34_get_vector; auto. Qed.
Lemma put_sq sub x map n : square n x -> (n < word)%nat -> validMap map n -> square (length (allOr map n)) sub ->
  exists f, convertSubsetToFullSq f64 fuel sub x map = Ok f /\ written2 f64 sub x f (allOr map n) (allOr map n).
Proof.
  intros [R C] Hn HV [Rs Cs]. pose proof (valid_length _ _ HV).
  destruct (C34_square_versions f64 fzero junk fuel x sub x map ltac:(lia)) as (_ & E & _). rewrite E.
  destruct (C34_put_matrix f64 junk fuel enough_fuel sub x map map) as (f & Ef & Hf); rewrite ?R, ?C; auto. rewrite R, C in Hf. eauto.
Qed.
Lemma valid_nil n : validMap [] n. Proof. split; constructor. Qed.
Lemma seq_nth0 n k : (k < n)%nat -> nth k (seq 0 n) 0%nat = k. Proof. intros H. rewrite seq_nth by exact H. reflexivity. Qed.

(** *** the covariance after predict *)
Lemma vs_cov n p acts A cov P Rp V Rc (f : fm -> rel (fv * fm)) r covS AS RcS PS VS s c :
  s = allOr acts n -> square n cov -> (n < word)%nat -> validMap acts n -> square p Rp ->
  extracted2 f64 cov covS s s -> extracted2 f64 A AS s s -> extracted2 f64 Rc RcS c c -> extracted2 f64 P PS s (seq 0 p) -> extracted2 f64 V VS s c ->
  (let% cov_prime_subset := cov_expr AS covS PS Rp VS RcS in
   let% cov' := det (convertSubsetToFullSq f64 fuel cov_prime_subset cov acts) in f cov') r ->
  exists cov', f cov' r /\ block_written n s cov cov' /\
    predicted_cov (length s) p (length c) (pick s s A) (pick s s cov) (pick s (seq 0 p) P) (at_ Rp) (pick s c V) (pick c c Rc) (pick s s cov').
Proof.
  intros Es Sc Hn HV [Rr Rc'] (c1 & c2 & c3) (a1 & a2 & a3) (d1 & d2 & d3) (p1 & p2 & p3) (v1 & v2 & v3) H. rewrite seq_length in p2, p3.
  apply rbind_check in H. 2: { rewrite a1, a2, c1, c2, p1, p2, v1, v2, d1, d2, Rr, Rc', !Nat.eqb_refl. reflexivity. }
  apply rbind_ok in H as (M & (M1 & M2 & AP & PR & VR & H1 & H2 & H3 & H4) & H).
  rewrite a1 in M1, M2, H4. rewrite a1, a2, c2 in H1. rewrite p1, p2, Rc' in H2. rewrite v1, v2, d2 in H3. rewrite c2, Rc', d2 in H4.
  destruct (put_sq M cov acts n Sc Hn HV) as (cov' & E & W1 & W2 & W3 & W4); [rewrite <- Es; split; assumption|]. rewrite <- Es in W3, W4. rewrite E in H. apply rbind_det in H. destruct Sc as [Sc1 Sc2].
  exists cov'. split; [exact H|]. split.
  { split; [split; congruence|]. intros i j Hi Hj Hn'. apply W4; congruence || auto; lia. }
  exists AP, PR, VR. split; [|split; [|split]].
  - eapply product_ext; [| |exact H1]; intros; [apply a3|apply c3]; assumption.
  - eapply product_ext; [| |exact H2]; intros i k Hi Hk; [|reflexivity]. apply p3; assumption.
  - eapply product_ext; [| |exact H3]; intros; [apply v3|apply d3]; assumption.
  - intros i j Hi Hj. change (pick s s cov' i j) with (at_ cov' (nth i s 0%nat) (nth j s 0%nat)). rewrite W3 by assumption.
    specialize (H4 i j Hi Hj). erewrite (pairs_ext (length s)), (pairs_ext p), (pairs_ext (length c)); [exact H4| | |]; intros k Hk; (split; [reflexivity|]); symmetry;
      [apply v3|apply p3|apply a3]; assumption.
Qed.
Lemma allOr_nil n : allOr [] n = seq 0 n. Proof. reflexivity. Qed.
Lemma same_add (x : f64) : same (fadd64 x fzero) x.
Proof. destruct x as [[]|[]| |sx mx ex Bx]; try (left; reflexivity); right; repeat split. Qed.
Lemma zero_sum : fadd64 fzero fzero = fzero. Proof. reflexivity. Qed.

(** *** EKFVS, predict *)
Theorem C111_ekfvs_predict n m p acts actc g G P V Rp Rc cov r :
  (n < word)%nat -> (m < word)%nat -> (p < word)%nat -> validMap acts n -> validMap actc m ->
  square n G -> sized n p P -> sized n m V -> square p Rp -> square m Rc -> square n cov ->
  ekfvs_predict junk fuel acts actc g G P V Rp Rc cov r ->
  let s := allOr acts n in let c := allOr actc m in
  exists cov', r = Ok (g, cov') /\ block_written n s cov cov' /\
    predicted_cov (length s) p (length c) (pick s s G) (pick s s cov) (pick s (seq 0 p) P) (at_ Rp) (pick s c V) (pick c c Rc) (pick s s cov').
Proof.
  intros Hn Hm Hp HVs HVc SG SP SV SRp SRc Sc H s c. unfold ekfvs_predict in H.
  destruct (get_sq cov acts n Sc Hn HVs) as (covS & E1 & X1). rewrite E1 in H. apply rbind_det in H.
  destruct (get_sq G acts n SG Hn HVs) as (GS & E2 & X2). rewrite E2 in H. apply rbind_det in H.
  destruct (get_sq Rc actc m SRc Hm HVc) as (RcS & E3 & X3). rewrite E3 in H. apply rbind_det in H.
  destruct (get_rc P acts [] n p SP Hn Hp HVs (valid_nil p)) as (PS & E4 & X4). rewrite E4 in H. apply rbind_det in H.
  destruct (get_rc V acts actc n m SV Hn Hm HVs HVc) as (VS & E5 & X5). rewrite E5 in H. apply rbind_det in H.
  destruct (vs_cov n p acts G cov P Rp V Rc (fun cov' => det (Ok (g, cov'))) r covS GS RcS PS VS s c eq_refl Sc Hn HVs SRp X1 X2 X3 X4 X5 H) as (cov' & H' & B & Q).
  exists cov'. split; [exact H'|]. split; assumption.
Qed.

(** *** KalmanFilterVS, predict: the same, but it sets the inactive states to 0 *)
Theorem C111_kfvs_predict n m p acts actc A B P V Rp Rc x u cov r :
  (n < word)%nat -> (m < word)%nat -> (p < word)%nat -> validMap acts n -> validMap actc m ->
  square n A -> sized n m B -> sized n p P -> sized n m V -> square p Rp -> square m Rc -> vsize x = n -> vsize u = m -> square n cov ->
  kfvs_predict junk fuel acts actc n A B P V Rp Rc x u cov r ->
  let s := allOr acts n in let c := allOr actc m in
  exists x' cov', r = Ok (x', cov') /\ vsize x' = n /\ (forall i, (i < n)%nat -> ~ In i s -> vat x' i = fzero) /\ block_written n s cov cov' /\
    predicted_state (length s) (length c) (pick s s A) (pick s c B) (pickv s x) (pickv c u) (pickv s x') /\
    predicted_cov (length s) p (length c) (pick s s A) (pick s s cov) (pick s (seq 0 p) P) (at_ Rp) (pick s c V) (pick c c Rc) (pick s s cov').
Proof.
  intros Hn Hm Hp HVs HVc SA SB SP SV SRp SRc Sx Su Sc H s c. unfold kfvs_predict in H.
  destruct (get_v x acts n Sx Hn HVs) as (xS & Ex & x1 & x2). rewrite Ex in H. apply rbind_det in H.
  destruct (get_v u actc m Su Hm HVc) as (uS & Eu & u1 & u2). rewrite Eu in H. apply rbind_det in H.
  destruct (get_sq cov acts n Sc Hn HVs) as (covS & E1 & X1). rewrite E1 in H. apply rbind_det in H.
  destruct (get_sq A acts n SA Hn HVs) as (AS & E2 & X2). rewrite E2 in H. apply rbind_det in H.
  destruct (get_rc B acts actc n m SB Hn Hm HVs HVc) as (BS & E6 & X6). rewrite E6 in H. apply rbind_det in H.
  destruct (get_sq Rc actc m SRc Hm HVc) as (RcS & E3 & X3). rewrite E3 in H. apply rbind_det in H.
  destruct (get_rc P acts [] n p SP Hn Hp HVs (valid_nil p)) as (PS & E4 & X4). rewrite E4 in H. apply rbind_det in H.
  destruct (get_rc V acts actc n m SV Hn Hm HVs HVc) as (VS & E5 & X5). rewrite E5 in H. apply rbind_det in H.
  destruct X2 as (a1 & a2 & a3) eqn:D2. destruct X6 as (b1 & b2 & b3). 
  apply rbind_check in H; [|rewrite a2, x1, Nat.eqb_refl; reflexivity]. apply rbind_ok in H as (Ax & (Ax1 & Ax2) & H).
  apply rbind_check in H; [|rewrite b2, u1, Nat.eqb_refl; reflexivity]. apply rbind_ok in H as (Bu & (Bu1 & Bu2) & H).
  rewrite a1 in Ax1, Ax2. rewrite a2 in Ax2. rewrite b1 in Bu1, Bu2. rewrite b2 in Bu2.
  destruct (C34_zeroed_vector f64 fzero fuel enough_fuel Ax acts n Hn HVs Ax1) as (Axf & E7 & f1 & f2 & f3). rewrite E7 in H. apply rbind_det in H.
  destruct (C34_zeroed_vector f64 fzero fuel enough_fuel Bu acts n Hn HVs Bu1) as (Buf & E8 & g1 & g2 & g3). rewrite E8 in H. apply rbind_det in H.
  cbn [vsize vat] in f1, f3, g1, g3.
  apply rbind_check in H; [|rewrite f1, g1, Nat.eqb_refl; reflexivity]. apply rbind_det in H.
  set (x' := mkVec (vsize Axf) (fun i => fadd64 (vat Axf i) (vat Buf i))) in *.
  destruct (vs_cov n p acts A cov P Rp V Rc (fun cov' => det (Ok (x', cov'))) r covS AS RcS PS VS s c eq_refl Sc Hn HVs SRp X1 (conj a1 (conj a2 a3)) X3 X4 X5 H) as (cov' & H' & Bw & Q).
  exists x', cov'. split; [exact H'|]. split; [exact f1|]. split.
  { intros i Hi Hni. cbn [x' vat]. rewrite (f3 i Hi Hni), (g3 i Hi Hni). apply zero_sum. }
  split; [exact Bw|]. split; [|exact Q].
  exists (vat Ax), (vat Bu). intros i Hi. split; [|split].
  - erewrite pairs_ext; [apply Ax2; exact Hi|]. intros k Hk. split; symmetry; [apply a3|apply x2]; assumption.
  - erewrite pairs_ext; [apply Bu2; exact Hi|]. intros k Hk. split; symmetry; [apply b3|apply u2]; assumption.
  - unfold pickv. cbn [x' vat]. fold s in f2, g2. rewrite f2, g2 by exact Hi. reflexivity.
Qed.

(** *** corrections *)
Lemma vs_gain n k (s c : list nat) H cov Q covS HS QS (f : fm -> rel (fv * fm)) r :
  length s = n -> length c = k -> extracted2 f64 cov covS s s -> extracted2 f64 H HS c s -> extracted2 f64 Q QS c c ->
  (let% cov_H_T := mul covS (transp HS) in let% inv := plus_inverse inverts HS cov_H_T QS in let% K := mul cov_H_T inv in f K) r ->
  exists S inv K, sized n k K /\ innovation_cov n k (pick c s H) (pick s s cov) (pick c c Q) S /\ inverts k S inv /\ gain n k (pick c s H) (pick s s cov) inv (at_ K) /\ f K r.
Proof.
  intros <- <- (c1 & c2 & c3) (h1 & h2 & h3) (q1 & q2 & q3) R.
  apply rbind_check in R; [|cbn [transp rows]; rewrite c2, h2, Nat.eqb_refl; reflexivity]. apply rbind_ok in R as (PH & (P1 & P2 & P3) & R).
  cbn [transp rows cols at_] in P2, P3. rewrite c1 in P1. rewrite h1 in P2. rewrite c1, c2, h1 in P3.
  apply rbind_check in R; [|rewrite h2, P1, h1, q1, P2, q2, !Nat.eqb_refl; reflexivity]. apply rbind_ok in R as (inv & (i1 & i2 & S & HS1 & HS2) & R).
  rewrite q1, q2, h2 in HS1. rewrite q1 in HS2. rewrite q1 in i1. rewrite q2 in i2.
  apply rbind_check in R; [|rewrite P2, i1, Nat.eqb_refl; reflexivity]. apply rbind_ok in R as (K & (K1 & K2 & K3) & R).
  rewrite P1 in K1. rewrite i2 in K2. rewrite P1, P2, i2 in K3.
  assert (P3' : product (length s) (length s) (length c) (pick s s cov) (fun i j => pick c s H j i) (at_ PH)).
  { eapply product_ext; [| |exact P3]; intros i j Hi Hj; cbv beta; [apply c3|apply h3]; assumption. }
  exists S, (at_ inv), K. split; [split; assumption|]. split; [|split; [exact HS2|split; [|exact R]; exists (at_ PH); split; [exact P3'|exact K3]]].
  exists (at_ PH). split; [exact P3'|]. intros i j Hi Hj. specialize (HS1 i j Hi Hj). rewrite q3 in HS1 by assumption.
  rewrite (pairs_ext (length s) (pick c s H i) (at_ HS i) (fun l => at_ PH l j) (fun l => at_ PH l j)); [exact HS1|]. intros l Hl. split; [|reflexivity]. symmetry. apply h3; assumption.
Qed.
Lemma vs_correct_cov n acts H cov K covS HS (f : fm -> rel (fv * fm)) r s c :
  s = allOr acts n -> square n cov -> (n < word)%nat -> validMap acts n -> sized (length s) (length c) K ->
  extracted2 f64 cov covS s s -> extracted2 f64 H HS c s ->
  (let% cov_prime := joseph K HS covS in let% cov' := det (convertSubsetToFullSq f64 fuel cov_prime cov acts) in f cov') r ->
  exists cov', f cov' r /\ block_written n s cov cov' /\ corrected_cov (length s) (length c) (pick c s H) (pick s s cov) (at_ K) (pick s s cov').
Proof.
  intros Es Sc Hn HV (k1 & k2) (c1 & c2 & c3) (h1 & h2 & h3) R.
  apply rbind_check in R; [|rewrite k2, h1, h2, c1, k1, !Nat.eqb_refl; reflexivity].
  assert (R' : exists M, (exists IKC, rows M = rows K /\ cols M = cols covS /\
    (forall i j, (i < rows K)%nat -> (j < cols HS)%nat -> sums ((fone, if Nat.eqb i j then fone else fzero) :: pairs (cols K) (fun l => fopp64 (at_ K i l)) (fun l => at_ HS l j)) (IKC i j)) /\
    product (rows K) (cols HS) (cols covS) IKC (at_ covS) (at_ M)) /\ (let% cov' := det (convertSubsetToFullSq f64 fuel M cov acts) in f cov') r).
  { destruct R as [(e & (M & IKC & E & _) & _)|(a & (M & IKC & E & X) & R)]; [discriminate E|]. injection E as <-. exists a. split; [exists IKC; exact X|exact R]. }
  clear R. destruct R' as (M & (IKC & M1 & M2 & I1 & I2) & R). rewrite k1 in M1. rewrite c2 in M2. rewrite k1, h2, k2 in I1. rewrite k1, h2, c2 in I2.
  destruct (put_sq M cov acts n Sc Hn HV) as (cov' & E & W1 & W2 & W3 & W4); [rewrite <- Es; split; assumption|]. rewrite <- Es in W3, W4. rewrite E in R. apply rbind_det in R. destruct Sc as [Sc1 Sc2].
  exists cov'. split; [exact R|]. split.
  { split; [split; congruence|]. intros i j Hi Hj Hn'. apply W4; congruence || auto; lia. }
  exists IKC. split.
  - intros i j Hi Hj. erewrite pairs_ext; [apply I1; assumption|]. intros l Hl. split; [reflexivity|]. symmetry. apply h3; assumption.
  - intros i j Hi Hj. change (pick s s cov' i j) with (at_ cov' (nth i s 0%nat) (nth j s 0%nat)). rewrite W3 by assumption.
    erewrite pairs_ext; [apply I2; assumption|]. intros l Hl. split; [reflexivity|]. symmetry. apply c3; assumption.
Qed.
Lemma vs_state n acts (K : fm) (x dz : fv) (f : fv -> rel (fv * fm)) r s c dzS :
  s = allOr acts n -> (n < word)%nat -> validMap acts n -> vsize x = n -> sized (length s) (length c) K -> extracted1 f64 dz dzS c ->
  (let% dx_subset := mulv K dzS in let% dx_full := det (convertSubsetToFullZeroed f64 fzero fuel dx_subset acts n) in let% x' := addv x dx_full in f x') r ->
  exists x' dx, f x' r /\ vsize x' = n /\ (forall i, (i < n)%nat -> ~ In i s -> same (vat x' i) (vat x i)) /\
    forall i, (i < length s)%nat -> sums (pairs (length c) (at_ K i) (pickv c dz)) (dx i) /\ pickv s x' i = fadd64 (pickv s x i) (dx i).
Proof.
  intros Es Hn HV Sx (k1 & k2) (d1 & d2) R.
  apply rbind_check in R; [|rewrite k2, d1, Nat.eqb_refl; reflexivity]. apply rbind_ok in R as (dx & (D1 & D2) & R). rewrite k1 in D1. rewrite k1, k2 in D2.
  assert (D1' := D1). rewrite Es in D1'. destruct (C34_zeroed_vector f64 fzero fuel enough_fuel dx acts n Hn HV D1') as (dxf & E & f1 & f2 & f3). rewrite E in R. apply rbind_det in R. cbn [vsize vat] in f1, f3.
  apply rbind_check in R; [|rewrite f1, Sx, Nat.eqb_refl; reflexivity]. apply rbind_det in R. rewrite <- Es in f2, f3.
  eexists _, (vat dx). split; [exact R|]. split; [exact Sx|]. split.
  - intros i Hi Hni. cbn [vat]. rewrite (f3 i Hi Hni). apply same_add.
  - intros i Hi. split.
    + erewrite pairs_ext; [apply D2; exact Hi|]. intros l Hl. split; [reflexivity|]. symmetry. apply d2; exact Hl.
    + unfold pickv. cbn [vat]. rewrite f2 by exact Hi. reflexivity.
Qed.
Theorem C111_ekfvs_correct n k acts actz h H Q x z cov r :
  (n < word)%nat -> (k < word)%nat -> validMap acts n -> validMap actz k -> vsize h = k -> sized k n H -> square k Q -> vsize x = n -> vsize z = k -> square n cov ->
  ekfvs_correct junk fuel inverts acts actz n h H Q x z cov r ->
  let s := allOr acts n in let c := allOr actz k in
  exists x' cov' S inv K, r = Ok (x', cov') /\ vsize x' = n /\ (forall i, (i < n)%nat -> ~ In i s -> same (vat x' i) (vat x i)) /\ block_written n s cov cov' /\
    innovation_cov (length s) (length c) (pick c s H) (pick s s cov) (pick c c Q) S /\ inverts (length c) S inv /\ gain (length s) (length c) (pick c s H) (pick s s cov) inv K /\
    ekf_corrected_state (length s) (length c) K (pickv s x) (pickv c z) (pickv c h) (pickv s x') /\
    corrected_cov (length s) (length c) (pick c s H) (pick s s cov) K (pick s s cov').
Proof.
  intros Hn Hk HVs HVc Sh SH SQ Sx Sz Sc R s c. unfold ekfvs_correct in R.
  destruct (get_sq cov acts n Sc Hn HVs) as (covS & E1 & X1). rewrite E1 in R. apply rbind_det in R.
  destruct (get_rc H actz acts k n SH Hk Hn HVc HVs) as (HS & E2 & X2). rewrite E2 in R. apply rbind_det in R.
  destruct (get_sq Q actz k SQ Hk HVc) as (QS & E3 & X3). rewrite E3 in R. apply rbind_det in R.
  destruct (vs_gain (length s) (length c) s c H cov Q covS HS QS _ r eq_refl eq_refl X1 X2 X3 R) as (S & inv & K & SK & GS & GI & GK & R1). clear R. cbv beta in R1.
  apply rbind_check in R1; [|rewrite Sz, Sh, Nat.eqb_refl; reflexivity]. apply rbind_det in R1.
  destruct (get_v (mkVec (vsize z) (fun i => fsub64 (vat z i) (vat h i))) actz k Sz Hk HVc) as (dzS & E4 & X4). rewrite E4 in R1. apply rbind_det in R1.
  destruct (vs_state n acts K x _ _ r s c dzS eq_refl Hn HVs Sx SK X4 R1) as (x' & dx & R2 & Sx' & Same & D). clear R1. cbv beta in R2.
  destruct (vs_correct_cov n acts H cov K covS HS (fun cov' => det (Ok (x', cov'))) r s c eq_refl Sc Hn HVs SK X1 X2 R2) as (cov' & R3 & Bw & CC).
  exists x', cov', S, inv, (at_ K). split; [exact R3|]. split; [exact Sx'|]. split; [exact Same|]. split; [exact Bw|]. split; [exact GS|]. split; [exact GI|]. split; [exact GK|]. split; [|exact CC].
  exists (fun a => fsub64 (pickv c z a) (pickv c h a)), dx. split; [intros; reflexivity|]. intros i Hi. exact (D i Hi).
Qed.
Theorem C111_kfvs_correct n k acts actz C Q x z cov r :
  (n < word)%nat -> (k < word)%nat -> validMap acts n -> validMap actz k -> sized k n C -> square k Q -> vsize x = n -> vsize z = k -> square n cov ->
  kfvs_correct junk fuel inverts acts actz n k C Q x z cov r ->
  let s := allOr acts n in let c := allOr actz k in
  exists x' cov' S inv K, r = Ok (x', cov') /\ vsize x' = n /\ (forall i, (i < n)%nat -> ~ In i s -> same (vat x' i) (vat x i)) /\ block_written n s cov cov' /\
    innovation_cov (length s) (length c) (pick c s C) (pick s s cov) (pick c c Q) S /\ inverts (length c) S inv /\ gain (length s) (length c) (pick c s C) (pick s s cov) inv K /\
    corrected_state (length s) (length c) (pick c s C) K (pickv s x) (pickv c z) (pickv s x') /\
    corrected_cov (length s) (length c) (pick c s C) (pick s s cov) K (pick s s cov').
Proof.
  intros Hn Hk HVs HVc SC SQ Sx Sz Sc R s c. unfold kfvs_correct in R.
  destruct (get_v x acts n Sx Hn HVs) as (xS & Ex & x1 & x2). rewrite Ex in R. apply rbind_det in R.
  destruct (get_sq cov acts n Sc Hn HVs) as (covS & E1 & X1). rewrite E1 in R. apply rbind_det in R.
  destruct (get_rc C actz acts k n SC Hk Hn HVc HVs) as (CS & E2 & X2). rewrite E2 in R. apply rbind_det in R.
  destruct (get_sq Q actz k SQ Hk HVc) as (QS & E3 & X3). rewrite E3 in R. apply rbind_det in R.
  destruct (vs_gain (length s) (length c) s c C cov Q covS CS QS _ r eq_refl eq_refl X1 X2 X3 R) as (S & inv & K & SK & GS & GI & GK & R1). clear R. cbv beta in R1.
  assert (X2' := X2). destruct X2' as (h1 & h2 & h3).
  apply rbind_check in R1; [|rewrite h2, x1, Nat.eqb_refl; reflexivity]. apply rbind_ok in R1 as (zp & (z1 & z2) & R1). rewrite h1 in z1, z2. rewrite h2 in z2.
  destruct (C34_zeroed_vector f64 fzero fuel enough_fuel zp actz k Hk HVc z1) as (zpf & E5 & f1 & f2 & f3). rewrite E5 in R1. apply rbind_det in R1. cbn [vsize vat] in f1, f3.
  apply rbind_check in R1; [|rewrite Sz, f1, Nat.eqb_refl; reflexivity]. apply rbind_det in R1.
  destruct (get_v (mkVec (vsize z) (fun i => fsub64 (vat z i) (vat zpf i))) actz k Sz Hk HVc) as (dzS & E4 & X4). rewrite E4 in R1. apply rbind_det in R1.
  destruct (vs_state n acts K x _ _ r s c dzS eq_refl Hn HVs Sx SK X4 R1) as (x' & dx & R2 & Sx' & Same & D). clear R1. cbv beta in R2.
  destruct (vs_correct_cov n acts C cov K covS CS (fun cov' => det (Ok (x', cov'))) r s c eq_refl Sc Hn HVs SK X1 X2 R2) as (cov' & R3 & Bw & CC).
  exists x', cov', S, inv, (at_ K). split; [exact R3|]. split; [exact Sx'|]. split; [exact Same|]. split; [exact Bw|]. split; [exact GS|]. split; [exact GI|]. split; [exact GK|]. split; [|exact CC].
  fold c in f2. exists (fun a => vat zpf (nth a c 0%nat)), (fun a => fsub64 (pickv c z a) (vat zpf (nth a c 0%nat))), dx. split.
  - intros l Hl. split; [|reflexivity]. rewrite f2 by exact Hl. erewrite pairs_ext; [apply z2; exact Hl|]. intros i Hi. split; symmetry; [apply h3|apply x2]; assumption.
  - intros i Hi. exact (D i Hi).
Qed.
End VS.

(** ** Accuracy *)
(** the innovation covariance H P H' + Q, and its rounding error *)
Definition exact_innov n (H P Q : rmat) (a b : nat) : R := Q a b + rsum n (fun l => rsum n (fun q => P l q * H b q) * H a l).
Definition rounding_innov n (H P Q : fmat) (a b : nat) : R :=
  ((1 + bpow radix2 (-53)) ^ (2 * (n + 1)) - 1) * exact_innov n (mags H) (mags P) (mags Q) a b
  + bpow radix2 (-1075) * (1 + bpow radix2 (-53)) ^ (2 * (n + 1)) * (INR (n + 1) * (1 + rsum n (mags H a)) + INR (n + 1)).
Section Accuracy.
Variable junk : nat -> nat -> f64.
Variable fuel : nat.
Variable inverts : nat -> fmat -> fmat -> Prop.
Hypothesis enough_fuel : (word <= fuel)%nat.

(** predict: the covariances of active states are those of exact arithmetic with the active rows and columns,
    up to rounding; all other covariances are untouched *)
Theorem C111_ekfvs_predict_accuracy n m p acts actc g G P V Rp Rc cov r :
  (n < word)%nat -> (m < word)%nat -> (p < word)%nat -> validMap acts n -> validMap actc m ->
  square n G -> sized n p P -> sized n m V -> square p Rp -> square m Rc -> square n cov ->
  ekfvs_predict junk fuel acts actc g G P V Rp Rc cov r ->
  let s := allOr acts n in let c := allOr actc m in
  exists cov', r = Ok (g, cov') /\
    (forall i j, (i < n)%nat -> (j < n)%nat -> ~ (In i s /\ In j s) -> at_ cov' i j = at_ cov i j) /\
    (forall a b, (a < length s)%nat -> (b < length s)%nat -> finite (at_ cov' (nth a s 0%nat) (nth b s 0%nat)) = true ->
       Rabs (val (at_ cov' (nth a s 0%nat) (nth b s 0%nat)) - exact_cov (length s) p (length c) (pick s s G) (pick s s cov) (pick s (seq 0 p) P) (at_ Rp) (pick s c V) (pick c c Rc) a b)
       <= rounding (length s) p (length c) (pick s s G) (pick s s cov) (pick s (seq 0 p) P) (at_ Rp) (pick s c V) (pick c c Rc) a b).
Proof.
  intros Hn Hm Hp HVs HVc SG SP SV SRp SRc Sc H s c.
  destruct (C111_ekfvs_predict junk fuel enough_fuel n m p acts actc g G P V Rp Rc cov r Hn Hm Hp HVs HVc SG SP SV SRp SRc Sc H) as (cov' & E & (_ & B) & Q).
  exists cov'. split; [exact E|]. split; [exact B|]. intros a b Ha Hb F. exact (C109_error_partial _ _ _ _ _ _ _ _ _ _ a b Q Ha Hb F).
Qed.
(** correct: the same, for whatever gain K was used *)
Theorem C111_ekfvs_correct_accuracy n k acts actz h H Q x z cov r :
  (n < word)%nat -> (k < word)%nat -> validMap acts n -> validMap actz k -> vsize h = k -> sized k n H -> square k Q -> vsize x = n -> vsize z = k -> square n cov ->
  ekfvs_correct junk fuel inverts acts actz n h H Q x z cov r ->
  let s := allOr acts n in let c := allOr actz k in
  exists x' cov' S inv K, r = Ok (x', cov') /\
    (forall a b, (a < length c)%nat -> (b < length c)%nat -> finite (S a b) = true ->
       Rabs (val (S a b) - exact_innov (length s) (vals (pick c s H)) (vals (pick s s cov)) (vals (pick c c Q)) a b) <= rounding_innov (length s) (pick c s H) (pick s s cov) (pick c c Q) a b) /\
    inverts (length c) S inv /\ gain (length s) (length c) (pick c s H) (pick s s cov) inv K /\
    (forall i, (i < n)%nat -> ~ In i s -> same (vat x' i) (vat x i)) /\
    (forall a, (a < length s)%nat -> finite (vat x' (nth a s 0%nat)) = true ->
       Rabs (val (vat x' (nth a s 0%nat)) - (val (vat x (nth a s 0%nat)) + rsum (length c) (fun b => (val (vat z (nth b c 0%nat)) - val (vat h (nth b c 0%nat))) * val (K a b))))
       <= ((1 + bpow radix2 (-53)) ^ (length c + 2) - 1) * (Rabs (val (vat x (nth a s 0%nat))) + rsum (length c) (fun b => (Rabs (val (vat z (nth b c 0%nat))) + Rabs (val (vat h (nth b c 0%nat)))) * Rabs (val (K a b))))
          + bpow radix2 (-1075) * (1 + bpow radix2 (-53)) ^ (length c + 2) * (rsum (length c) (fun b => Rabs (val (K a b))) + INR (length c))) /\
    (forall i j, (i < n)%nat -> (j < n)%nat -> ~ (In i s /\ In j s) -> at_ cov' i j = at_ cov i j) /\
    (forall a b, (a < length s)%nat -> (b < length s)%nat -> finite (at_ cov' (nth a s 0%nat) (nth b s 0%nat)) = true ->
       Rabs (val (at_ cov' (nth a s 0%nat) (nth b s 0%nat)) - exact_corr (length s) (length c) (vals (pick c s H)) (vals K) (vals (pick s s cov)) a b)
       <= rounding_corr (length s) (length c) (pick c s H) K (pick s s cov) a b).
Proof.
  intros Hn Hk HVs HVc Sh SH SQ Sx Sz Sc R s c.
  destruct (C111_ekfvs_correct junk fuel inverts enough_fuel n k acts actz h H Q x z cov r Hn Hk HVs HVc Sh SH SQ Sx Sz Sc R) as (x' & cov' & S & inv & K & E & Sx' & Sm & (_ & B) & GS & GI & GK & St & CC).
  exists x', cov', S, inv, K. split; [exact E|]. split; [intros a b Ha Hb F; exact (C110_innovation_partial _ _ _ _ _ _ a b GS Ha Hb F)|]. split; [exact GI|]. split; [exact GK|]. split; [exact Sm|]. split; [|split; [exact B|]].
  - intros a Ha F. exact (C110_ekf_state_partial _ _ _ _ _ _ _ a St Ha F).
  - intros a b Ha Hb F. exact (C110_covariance_partial _ _ _ _ _ _ a b CC Ha Hb F).
Qed.
(** the same for KalmanFilterVS *)
Theorem C111_kfvs_predict_accuracy n m p acts actc A B P V Rp Rc x u cov r :
  (n < word)%nat -> (m < word)%nat -> (p < word)%nat -> validMap acts n -> validMap actc m ->
  square n A -> sized n m B -> sized n p P -> sized n m V -> square p Rp -> square m Rc -> vsize x = n -> vsize u = m -> square n cov ->
  kfvs_predict junk fuel acts actc n A B P V Rp Rc x u cov r ->
  let s := allOr acts n in let c := allOr actc m in
  exists x' cov', r = Ok (x', cov') /\ (forall i, (i < n)%nat -> ~ In i s -> vat x' i = fzero) /\
    (forall a, (a < length s)%nat -> finite (vat x' (nth a s 0%nat)) = true ->
       Rabs (val (vat x' (nth a s 0%nat)) - (rsum (length s) (fun b => val (at_ A (nth a s 0%nat) (nth b s 0%nat)) * val (vat x (nth b s 0%nat)))
                                           + rsum (length c) (fun b => val (at_ B (nth a s 0%nat) (nth b c 0%nat)) * val (vat u (nth b c 0%nat)))))
       <= ((1 + bpow radix2 (-53)) ^ (length s + length c) - 1) * (rsum (length s) (fun b => Rabs (val (at_ A (nth a s 0%nat) (nth b s 0%nat))) * Rabs (val (vat x (nth b s 0%nat))))
                                           + rsum (length c) (fun b => Rabs (val (at_ B (nth a s 0%nat) (nth b c 0%nat))) * Rabs (val (vat u (nth b c 0%nat)))))
          + INR (length s + length c) * bpow radix2 (-1075) * (1 + bpow radix2 (-53)) ^ (length s + length c)) /\
    (forall i j, (i < n)%nat -> (j < n)%nat -> ~ (In i s /\ In j s) -> at_ cov' i j = at_ cov i j) /\
    (forall a b, (a < length s)%nat -> (b < length s)%nat -> finite (at_ cov' (nth a s 0%nat) (nth b s 0%nat)) = true ->
       Rabs (val (at_ cov' (nth a s 0%nat) (nth b s 0%nat)) - exact_cov (length s) p (length c) (pick s s A) (pick s s cov) (pick s (seq 0 p) P) (at_ Rp) (pick s c V) (pick c c Rc) a b)
       <= rounding (length s) p (length c) (pick s s A) (pick s s cov) (pick s (seq 0 p) P) (at_ Rp) (pick s c V) (pick c c Rc) a b).
Proof.
  intros Hn Hm Hp HVs HVc SA SB SP SV SRp SRc Sx Su Sc H s c.
  destruct (C111_kfvs_predict junk fuel enough_fuel n m p acts actc A B P V Rp Rc x u cov r Hn Hm Hp HVs HVc SA SB SP SV SRp SRc Sx Su Sc H) as (x' & cov' & E & _ & Z & (_ & Bw) & St & Q).
  exists x', cov'. split; [exact E|]. split; [exact Z|]. split; [|split; [exact Bw|]].
  - intros a Ha F. exact (C109_state_partial _ _ _ _ _ _ _ a St Ha F).
  - intros a b Ha Hb F. exact (C109_error_partial _ _ _ _ _ _ _ _ _ _ a b Q Ha Hb F).
Qed.
Theorem C111_kfvs_correct_accuracy n k acts actz C Q x z cov r :
  (n < word)%nat -> (k < word)%nat -> validMap acts n -> validMap actz k -> sized k n C -> square k Q -> vsize x = n -> vsize z = k -> square n cov ->
  kfvs_correct junk fuel inverts acts actz n k C Q x z cov r ->
  let s := allOr acts n in let c := allOr actz k in
  exists x' cov' S inv K, r = Ok (x', cov') /\
    (forall a b, (a < length c)%nat -> (b < length c)%nat -> finite (S a b) = true ->
       Rabs (val (S a b) - exact_innov (length s) (vals (pick c s C)) (vals (pick s s cov)) (vals (pick c c Q)) a b) <= rounding_innov (length s) (pick c s C) (pick s s cov) (pick c c Q) a b) /\
    inverts (length c) S inv /\ gain (length s) (length c) (pick c s C) (pick s s cov) inv K /\
    (forall i, (i < n)%nat -> ~ In i s -> same (vat x' i) (vat x i)) /\
    (forall a, (a < length s)%nat -> finite (vat x' (nth a s 0%nat)) = true ->
       Rabs (val (vat x' (nth a s 0%nat)) - exact_state (length s) (length c) (vals (pick c s C)) (vals K) (fun l => val (vat x (nth l s 0%nat))) (fun b => val (vat z (nth b c 0%nat))) a)
       <= rounding_state (length s) (length c) (pick c s C) K (pickv s x) (pickv c z) a) /\
    (forall i j, (i < n)%nat -> (j < n)%nat -> ~ (In i s /\ In j s) -> at_ cov' i j = at_ cov i j) /\
    (forall a b, (a < length s)%nat -> (b < length s)%nat -> finite (at_ cov' (nth a s 0%nat) (nth b s 0%nat)) = true ->
       Rabs (val (at_ cov' (nth a s 0%nat) (nth b s 0%nat)) - exact_corr (length s) (length c) (vals (pick c s C)) (vals K) (vals (pick s s cov)) a b)
       <= rounding_corr (length s) (length c) (pick c s C) K (pick s s cov) a b).
Proof.
  intros Hn Hk HVs HVc SH SQ Sx Sz Sc R s c.
  destruct (C111_kfvs_correct junk fuel inverts enough_fuel n k acts actz C Q x z cov r Hn Hk HVs HVc SH SQ Sx Sz Sc R) as (x' & cov' & S & inv & K & E & Sx' & Sm & (_ & B) & GS & GI & GK & St & CC).
  exists x', cov', S, inv, K. split; [exact E|]. split; [intros a b Ha Hb F; exact (C110_innovation_partial _ _ _ _ _ _ a b GS Ha Hb F)|]. split; [exact GI|]. split; [exact GK|]. split; [exact Sm|]. split; [|split; [exact B|]].
  - intros a Ha F. exact (C110_state_partial _ _ _ _ _ _ _ a St Ha F).
  - intros a b Ha Hb F. exact (C110_covariance_partial _ _ _ _ _ _ a b CC Ha Hb F).
Qed.

(** ** The steps always have a result *)
Lemma sums_total l : exists c, sums l c.
Proof. induction l as [|[a b] l (c & IH)]; [exists fzero; constructor|]. eexists. apply (sum_add [(a, b)] l); [constructor|exact IH]. Qed.
Lemma choice2 (L : nat -> nat -> list (f64 * f64)) : exists M : fmat, forall i j, sums (L i j) (M i j).
Proof.
  exists (fun i j => fold_right (fun p c => fadd64 (fmul64 (fst p) (snd p)) c) fzero (L i j)). intros i j.
  induction (L i j) as [|[a b] l IH]; [constructor|]. apply (sum_add [(a, b)] l); [constructor|exact IH].
Qed.
Lemma rbind_ex {A B} (m : rel A) (f : A -> rel B) a : m (Ok a) -> (exists r, f a r) -> exists r, rbind m f r.
Proof. intros H (r & H'). exists r. right. eauto. Qed.
Lemma mulv_ex X y : cols X = vsize y -> exists v, mulv X y (Ok v) /\ vsize v = rows X.
Proof.
  intros E. destruct (choice2 (fun i _ => pairs (cols X) (at_ X i) (vat y))) as (M & HM). exists (mkVec (rows X) (fun i => M i 0%nat)).
  split; [|reflexivity]. unfold mulv, check. rewrite E, Nat.eqb_refl. eexists. split; [reflexivity|]. split; [reflexivity|]. intros i _. rewrite <- E. apply HM.
Qed.
Lemma mul_ex X Y : cols X = rows Y -> exists M, mul X Y (Ok M) /\ sized (rows X) (cols Y) M.
Proof.
  intros E. destruct (choice2 (fun i j => pairs (cols X) (at_ X i) (fun k => at_ Y k j))) as (M & HM). exists (mkMat (rows X) (cols Y) M).
  split; [|split; reflexivity]. unfold mul, check. rewrite E, Nat.eqb_refl. eexists. repeat split. intros i j _ _. rewrite <- E. apply HM.
Qed.
Lemma inv_ex H M Q : (forall S, exists I, inverts (rows Q) S I) -> cols H = rows M -> rows H = rows Q -> cols M = cols Q -> rows Q = cols Q -> exists I, plus_inverse inverts H M Q (Ok I) /\ sized (rows Q) (cols Q) I.
Proof.
  intros HI E1 E2 E3 E4. destruct (choice2 (fun i j => (fone, at_ Q i j) :: pairs (cols H) (at_ H i) (fun l => at_ M l j))) as (S & HS). destruct (HI S) as (I & HI').
  exists (mkMat (rows Q) (cols Q) I). split; [|split; reflexivity]. unfold plus_inverse, check. rewrite E1, E2, E3, <- E4, !Nat.eqb_refl. eexists. split; [reflexivity|]. split; [reflexivity|]. split; [cbn; congruence|].
  exists S. split; [|exact HI']. intros i j _ _. rewrite <- E1. apply HS.
Qed.
Lemma joseph_ex K H cov : cols K = rows H -> cols H = rows cov -> rows K = rows cov -> exists M, joseph K H cov (Ok M) /\ sized (rows K) (cols cov) M.
Proof.
  intros E1 E2 E3. destruct (choice2 (fun i j => (fone, if Nat.eqb i j then fone else fzero) :: pairs (cols K) (fun l => fopp64 (at_ K i l)) (fun l => at_ H l j))) as (I & HI).
  destruct (choice2 (fun i j => pairs (cols H) (I i) (fun k => at_ cov k j))) as (M & HM). exists (mkMat (rows K) (cols cov) M). split; [|split; reflexivity].
  unfold joseph, check. replace ((cols K =? rows H)%nat && (cols H =? rows cov)%nat && (rows K =? rows cov)%nat) with true by (rewrite E1, E2, E3, !Nat.eqb_refl; reflexivity).
  exists (mkMat (rows K) (cols cov) M), I. repeat split; [intros i j _ _; apply HI|]. intros i j _ _. apply HM.
Qed.
Theorem C111_ekfvs_correct_total n k acts actz h H Q x z cov :
  (n < word)%nat -> (k < word)%nat -> validMap acts n -> validMap actz k -> vsize h = k -> sized k n H -> square k Q -> vsize x = n -> vsize z = k -> square n cov ->
  (forall S, exists I, inverts (length (allOr actz k)) S I) ->
  exists r, ekfvs_correct junk fuel inverts acts actz n h H Q x z cov r.
Proof.
  intros Hn Hk HVs HVc Sh SH SQ Sx Sz Sc HInv. unfold ekfvs_correct.
  destruct (get_sq junk fuel enough_fuel cov acts n Sc Hn HVs) as (covS & E1 & c1 & c2 & _). rewrite E1. eapply rbind_ex; [reflexivity|].
  destruct (get_rc junk fuel enough_fuel H actz acts k n SH Hk Hn HVc HVs) as (HS & E2 & h1 & h2 & _). rewrite E2. eapply rbind_ex; [reflexivity|].
  destruct (get_sq junk fuel enough_fuel Q actz k SQ Hk HVc) as (QS & E3 & q1 & q2 & _). rewrite E3. eapply rbind_ex; [reflexivity|].
  destruct (mul_ex covS (transp HS)) as (PH & X1 & p1 & p2); [cbn; congruence|]. cbn [transp cols] in p2. eapply rbind_ex; [exact X1|].
  destruct (inv_ex HS PH QS) as (I & X2 & i1 & i2); [rewrite q1; exact HInv|congruence..|]. eapply rbind_ex; [exact X2|].
  destruct (mul_ex PH I) as (K & X3 & k1 & k2); [congruence|]. eapply rbind_ex; [exact X3|].
  unfold subv, check. rewrite Sz, Sh, Nat.eqb_refl. eapply rbind_ex; [reflexivity|].
  destruct (get_v junk fuel enough_fuel (mkVec k (fun i => fsub64 (vat z i) (vat h i))) actz k eq_refl Hk HVc) as (dzS & E4 & d1 & _). rewrite E4. eapply rbind_ex; [reflexivity|].
  destruct (mulv_ex K dzS) as (dx & X5 & x1); [congruence|]. eapply rbind_ex; [exact X5|].
  destruct (C34_zeroed_vector f64 fzero fuel enough_fuel dx acts n Hn HVs) as (dxf & E5 & f1 & _); [congruence|]. rewrite E5. eapply rbind_ex; [reflexivity|].
  cbn [vsize] in f1. unfold addv, check. rewrite Sx, f1, Nat.eqb_refl. eapply rbind_ex; [reflexivity|].
  destruct (joseph_ex K HS covS) as (M & X6 & m1 & m2); try congruence. eapply rbind_ex; [exact X6|].
  destruct (put_sq junk fuel enough_fuel M cov acts n Sc Hn HVs) as (cov' & E6 & _); [split; congruence|]. rewrite E6. eapply rbind_ex; [reflexivity|]. eexists. reflexivity.
Qed.
Lemma cov_ex G cov P Rp V Rc : cols G = rows cov -> cols cov = cols G -> cols P = rows Rp -> cols Rp = cols P -> cols V = rows Rc -> cols Rc = cols V -> rows P = rows G -> rows V = rows G ->
  exists M, cov_expr G cov P Rp V Rc (Ok M) /\ square (rows G) M.
Proof.
  intros E1 E2 E3 E4 E5 E6 E7 E8. destruct (choice2 (fun i j => pairs (cols G) (at_ G i) (fun k => at_ cov k j))) as (AP & H1).
  destruct (choice2 (fun i j => pairs (cols P) (at_ P i) (fun k => at_ Rp k j))) as (PR & H2). destruct (choice2 (fun i j => pairs (cols V) (at_ V i) (fun k => at_ Rc k j))) as (VR & H3).
  destruct (choice2 (fun i j => pairs (cols cov) (AP i) (at_ G j) ++ pairs (cols Rp) (PR i) (at_ P j) ++ pairs (cols Rc) (VR i) (at_ V j))) as (M & HM).
  exists (mkMat (rows G) (rows G) M). split; [|split; reflexivity]. unfold cov_expr, check.
  replace (_ && _) with true by (rewrite E7, E8, E1, <- E1, E2, E3, <- E3, E4, E5, <- E5, E6, !Nat.eqb_refl; reflexivity).
  exists (mkMat (rows G) (rows G) M). repeat split. exists AP, PR, VR. repeat split; intros i j _ _; first [apply H1|apply H2|apply H3|apply HM].
Qed.
Theorem C111_kfvs_predict_total n m p acts actc A B P V Rp Rc x u cov :
  (n < word)%nat -> (m < word)%nat -> (p < word)%nat -> validMap acts n -> validMap actc m ->
  square n A -> sized n m B -> sized n p P -> sized n m V -> square p Rp -> square m Rc -> vsize x = n -> vsize u = m -> square n cov ->
  exists r, kfvs_predict junk fuel acts actc n A B P V Rp Rc x u cov r.
Proof.
  intros Hn Hm Hp HVs HVc SA SB SP SV SRp SRc Sx Su Sc. unfold kfvs_predict.
  destruct (get_v junk fuel enough_fuel x acts n Sx Hn HVs) as (xS & Ex & x1 & x2). rewrite Ex. eapply rbind_ex; [reflexivity|].
  destruct (get_v junk fuel enough_fuel u actc m Su Hm HVc) as (uS & Eu & u1 & u2). rewrite Eu. eapply rbind_ex; [reflexivity|].
  destruct (get_sq junk fuel enough_fuel cov acts n Sc Hn HVs) as (covS & E1 & c1 & c2 & _). rewrite E1. eapply rbind_ex; [reflexivity|].
  destruct (get_sq junk fuel enough_fuel A acts n SA Hn HVs) as (AS & E2 & a1 & a2 & _). rewrite E2. eapply rbind_ex; [reflexivity|].
  destruct (get_rc junk fuel enough_fuel B acts actc n m SB Hn Hm HVs HVc) as (BS & E6 & b1 & b2 & _). rewrite E6. eapply rbind_ex; [reflexivity|].
  destruct (get_sq junk fuel enough_fuel Rc actc m SRc Hm HVc) as (RcS & E3 & r1 & r2 & _). rewrite E3. eapply rbind_ex; [reflexivity|].
  destruct (get_rc junk fuel enough_fuel P acts [] n p SP Hn Hp HVs (valid_nil p)) as (PS & E4 & p1 & p2 & _). rewrite E4. eapply rbind_ex; [reflexivity|]. cbn [allOr] in p2. rewrite seq_length in p2.
  destruct (get_rc junk fuel enough_fuel V acts actc n m SV Hn Hm HVs HVc) as (VS & E5 & v1 & v2 & _). rewrite E5. eapply rbind_ex; [reflexivity|].
  destruct (mulv_ex AS xS) as (Ax & X1 & s1); [congruence|]. eapply rbind_ex; [exact X1|].
  destruct (mulv_ex BS uS) as (Bu & X2 & s2); [congruence|]. eapply rbind_ex; [exact X2|].
  destruct (C34_zeroed_vector f64 fzero fuel enough_fuel Ax acts n Hn HVs) as (Axf & E7 & f1 & _); [congruence|]. rewrite E7. eapply rbind_ex; [reflexivity|].
  destruct (C34_zeroed_vector f64 fzero fuel enough_fuel Bu acts n Hn HVs) as (Buf & E8 & g1 & _); [congruence|]. rewrite E8. eapply rbind_ex; [reflexivity|].
  cbn [vsize] in f1, g1. unfold addv, check. rewrite f1, g1, Nat.eqb_refl. eapply rbind_ex; [reflexivity|].
  destruct SRp as [S1 S2]. destruct (cov_ex AS covS PS Rp VS RcS) as (M & X3 & m1 & m2); try congruence. eapply rbind_ex; [exact X3|].
  destruct (put_sq junk fuel enough_fuel M cov acts n Sc Hn HVs) as (cov' & E9 & _); [split; congruence|]. rewrite E9. eapply rbind_ex; [reflexivity|]. eexists. reflexivity.
Qed.
Theorem C111_ekfvs_predict_total n m p acts actc g G P V Rp Rc cov :
  (n < word)%nat -> (m < word)%nat -> (p < word)%nat -> validMap acts n -> validMap actc m ->
  square n G -> sized n p P -> sized n m V -> square p Rp -> square m Rc -> square n cov ->
  exists r, ekfvs_predict junk fuel acts actc g G P V Rp Rc cov r.
Proof.
  intros Hn Hm Hp HVs HVc SA SP SV SRp SRc Sc. unfold ekfvs_predict.
  destruct (get_sq junk fuel enough_fuel cov acts n Sc Hn HVs) as (covS & E1 & c1 & c2 & _). rewrite E1. eapply rbind_ex; [reflexivity|].
  destruct (get_sq junk fuel enough_fuel G acts n SA Hn HVs) as (AS & E2 & a1 & a2 & _). rewrite E2. eapply rbind_ex; [reflexivity|].
  destruct (get_sq junk fuel enough_fuel Rc actc m SRc Hm HVc) as (RcS & E3 & r1 & r2 & _). rewrite E3. eapply rbind_ex; [reflexivity|].
  destruct (get_rc junk fuel enough_fuel P acts [] n p SP Hn Hp HVs (valid_nil p)) as (PS & E4 & p1 & p2 & _). rewrite E4. eapply rbind_ex; [reflexivity|]. cbn [allOr] in p2. rewrite seq_length in p2.
  destruct (get_rc junk fuel enough_fuel V acts actc n m SV Hn Hm HVs HVc) as (VS & E5 & v1 & v2 & _). rewrite E5. eapply rbind_ex; [reflexivity|].
  destruct SRp as [S1 S2]. destruct (cov_ex AS covS PS Rp VS RcS) as (M & X3 & m1 & m2); try congruence. eapply rbind_ex; [exact X3|].
  destruct (put_sq junk fuel enough_fuel M cov acts n Sc Hn HVs) as (cov' & E9 & _); [split; congruence|]. rewrite E9. eapply rbind_ex; [reflexivity|]. eexists. reflexivity.
Qed.
Theorem C111_kfvs_correct_total n k acts actz C Q x z cov :
  (n < word)%nat -> (k < word)%nat -> validMap acts n -> validMap actz k -> sized k n C -> square k Q -> vsize x = n -> vsize z = k -> square n cov ->
  (forall S, exists I, inverts (length (allOr actz k)) S I) ->
  exists r, kfvs_correct junk fuel inverts acts actz n k C Q x z cov r.
Proof.
  intros Hn Hk HVs HVc SH SQ Sx Sz Sc HInv. unfold kfvs_correct.
  destruct (get_v junk fuel enough_fuel x acts n Sx Hn HVs) as (xS & Ex & x1 & x2). rewrite Ex. eapply rbind_ex; [reflexivity|].
  destruct (get_sq junk fuel enough_fuel cov acts n Sc Hn HVs) as (covS & E1 & c1 & c2 & _). rewrite E1. eapply rbind_ex; [reflexivity|].
  destruct (get_rc junk fuel enough_fuel C actz acts k n SH Hk Hn HVc HVs) as (HS & E2 & h1 & h2 & _). rewrite E2. eapply rbind_ex; [reflexivity|].
  destruct (get_sq junk fuel enough_fuel Q actz k SQ Hk HVc) as (QS & E3 & q1 & q2 & _). rewrite E3. eapply rbind_ex; [reflexivity|].
  destruct (mul_ex covS (transp HS)) as (PH & X1 & p1 & p2); [cbn; congruence|]. cbn [transp cols] in p2. eapply rbind_ex; [exact X1|].
  destruct (inv_ex HS PH QS) as (I & X2 & i1 & i2); [rewrite q1; exact HInv|congruence..|]. eapply rbind_ex; [exact X2|].
  destruct (mul_ex PH I) as (K & X3 & k1 & k2); [congruence|]. eapply rbind_ex; [exact X3|].
  destruct (mulv_ex HS xS) as (zp & X4 & z1); [congruence|]. eapply rbind_ex; [exact X4|].
  destruct (C34_zeroed_vector f64 fzero fuel enough_fuel zp actz k Hk HVc) as (zpf & E7 & g1 & _); [congruence|]. rewrite E7. eapply rbind_ex; [reflexivity|]. cbn [vsize] in g1.
  unfold subv, check. rewrite Sz, g1, Nat.eqb_refl. eapply rbind_ex; [reflexivity|].
  destruct (get_v junk fuel enough_fuel (mkVec k (fun i => fsub64 (vat z i) (vat zpf i))) actz k eq_refl Hk HVc) as (dzS & E4 & d1 & _). rewrite E4. eapply rbind_ex; [reflexivity|].
  destruct (mulv_ex K dzS) as (dx & X5 & y1); [congruence|]. eapply rbind_ex; [exact X5|].
  destruct (C34_zeroed_vector f64 fzero fuel enough_fuel dx acts n Hn HVs) as (dxf & E5 & f1 & _); [congruence|]. rewrite E5. eapply rbind_ex; [reflexivity|].
  cbn [vsize] in f1. unfold addv, check. rewrite Sx, f1, Nat.eqb_refl. eapply rbind_ex; [reflexivity|].
  destruct (joseph_ex K HS covS) as (M & X6 & m1 & m2); try congruence. eapply rbind_ex; [exact X6|].
  destruct (put_sq junk fuel enough_fuel M cov acts n Sc Hn HVs) as (cov' & E6 & _); [split; congruence|]. rewrite E6. eapply rbind_ex; [reflexivity|]. eexists. reflexivity.
Qed.
End Accuracy.
(** the hypotheses are met: three states of which 2 and 0 are active, two measurements of which 1 is *)
Definition w_mat (r c : nat) : fm := mkMat r c (fun i j => fz (Z.of_nat (2 + i * 3 + j))).
Definition w_vec (n : nat) : fv := mkVec n (fun i => fz (Z.of_nat (5 + i))).
Example C111_nonvacuous junk fuel : (word <= fuel)%nat -> exists r,
  ekfvs_correct junk fuel (fun k S I => k = 1%nat -> I 0%nat 0%nat = fdiv64 fone (S 0%nat 0%nat)) [2; 0]%nat [1]%nat 3 (w_vec 2) (w_mat 2 3) (w_mat 2 2) (w_vec 3) (w_vec 2) (w_mat 3 3) r
  /\ validMap [2; 0]%nat 3 /\ validMap [1]%nat 2 /\ ~ In 1%nat (allOr [2; 0]%nat 3).
Proof.
  intros enough_fuel. assert (W : (3 < word)%nat) by (apply Nat.leb_le; vm_compute; reflexivity).
  assert (V1 : validMap [2; 0]%nat 3) by (split; repeat constructor; simpl; intuition lia). assert (V2 : validMap [1]%nat 2) by (split; repeat constructor; simpl; intuition lia).
  destruct (C111_ekfvs_correct_total junk fuel (fun k S I => k = 1%nat -> I 0%nat 0%nat = fdiv64 fone (S 0%nat 0%nat)) enough_fuel 3 2 [2; 0]%nat [1]%nat (w_vec 2) (w_mat 2 3) (w_mat 2 2) (w_vec 3) (w_vec 2) (w_mat 3 3)) as (r & H); try lia; [..|intros S; exists (fun _ _ => fdiv64 fone (S 0%nat 0%nat)); intros _; reflexivity|]; try assumption; try reflexivity; try (split; reflexivity).
  exists r. repeat split; try assumption; try apply V1; try apply V2. simpl. intuition lia.
Qed.
