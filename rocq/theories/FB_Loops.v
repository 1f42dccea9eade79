(** Characterisation of the two reverse-iteration loops, for every history. *)
From Coq Require Import List Bool Arith Lia.
From Verif Require Import Outcome FB_Model.
Import ListNotations.

Lemma removelast_firstn_eq {A} (l : list A) : removelast l = firstn (length l - 1) l.
Proof.
  rewrite removelast_firstn_len. destruct (length l); simpl; auto. rewrite Nat.sub_0_r; auto.
Qed.

Lemma last_opt_app {A} (l : list A) a : last_opt (l ++ [a]) = Some a.
Proof.
  unfold last_opt. rewrite app_length; simpl.
  rewrite nth_error_app2 by lia. replace (_ - _) with 0 by lia. reflexivity.
Qed.

Lemma last_opt_nonempty {A} (l : list A) : l <> [] -> exists l' a, l = l' ++ [a] /\ last_opt l = Some a.
Proof.
  intros Hl. destruct (exists_last Hl) as (l' & a & ->). exists l', a. split; auto. apply last_opt_app.
Qed.

Lemma filter_length_le {A} (f : A -> bool) l : length (filter f l) <= length l.
Proof. induction l as [|a l IH]; simpl; [lia|]. destruct (f a); simpl; lia. Qed.

Lemma firstn_S_nth {A} (l : list A) b x :
  nth_error l b = Some x -> firstn (S b) l = firstn b l ++ [x].
Proof.
  revert b; induction l as [|a l IH]; intros [|b]; simpl; try discriminate.
  - intros [= ->]; reflexivity.
  - intros Hx. f_equal. apply IH; auto.
Qed.

Section Loops.
Context {TT : TimeOps} {E : Env TT} (L : Lib E).

(** "at or after ts", the test of line 282 *)
Definition at_or_after (ts : TT) (f : FState E) : bool := tle ts (f_ts f).
(** the test of line 437 *)
Definition older_than (cutoff : TT) (f : FState E) : bool := tlt (f_ts f) cutoff.

Lemma rewind_loop_char (Hlib : lib_strict L = false) ts :
  forall base h post, base <= length h ->
  rewind_loop L ts base h post =
    Ok (firstn (length h - length (filter (at_or_after ts) (firstn base h))) h,
        post ++ rev (filter (at_or_after ts) (firstn base h))).
Proof.
  induction base as [|b IH]; intros h post Hb.
  - cbn [rewind_loop]. simpl. rewrite Nat.sub_0_r, firstn_all, app_nil_r. reflexivity.
  - cbn [rewind_loop].
    destruct (nth_error h b) as [s|] eqn:En.
    2:{ apply nth_error_None in En. lia. }
    rewrite (firstn_S_nth _ _ _ En), filter_app, app_length, rev_app_distr.
    cbn [filter]. change (at_or_after ts s) with (tle ts (f_ts s)). destruct (tle ts (f_ts s)) eqn:Ht.
    + destruct h as [|a0 h0] eqn:Eh; [simpl in Hb; lia|]. rewrite <- Eh in *.
      unfold pop_ok. rewrite Hlib. simpl negb. rewrite orb_true_l.
      rewrite removelast_firstn_eq. rewrite IH.
      2:{ rewrite firstn_length. lia. }
      assert (Hl : length (firstn (length h - 1) h) = length h - 1) by (rewrite firstn_length; lia).
      rewrite Hl, !firstn_firstn.
      replace (Nat.min b (length h - 1)) with b by lia.
      replace (Nat.min _ (length h - 1)) with
        (length h - (length (filter (at_or_after ts) (firstn b h)) + 1)) by lia.
      rewrite <- app_assoc. reflexivity.
    + rewrite IH by lia. simpl. rewrite Nat.add_0_r. reflexivity.
Qed.

(** the longest suffix of old states is dropped *)
Fixpoint drop_while {A} (f : A -> bool) (l : list A) : list A :=
  match l with [] => [] | a :: l' => if f a then drop_while f l' else l end.
Definition drop_old_suffix (cutoff : TT) (h : list (FState E)) : list (FState E) :=
  rev (drop_while (older_than cutoff) (rev h)).

Lemma removelast_app1 {A} (l : list A) a : removelast (l ++ [a]) = l.
Proof. rewrite removelast_app by discriminate. simpl. apply app_nil_r. Qed.

Lemma prune_loop_char (Hlib : lib_strict L = false) cutoff :
  forall h, prune_loop L cutoff (length h) h = Ok (drop_old_suffix cutoff h).
Proof.
  intros h; induction h as [|s h IH] using rev_ind; [reflexivity|].
  rewrite app_length, Nat.add_1_r. cbn [prune_loop].
  rewrite nth_error_app2, Nat.sub_diag by lia. cbn [nth_error].
  unfold drop_old_suffix. rewrite rev_app_distr. cbn [rev app drop_while].
  unfold older_than at 1. destruct (tlt (f_ts s) cutoff) eqn:Et.
  - destruct (h ++ [s]) as [|a0 h0] eqn:Eh; [destruct h; discriminate|]. rewrite <- Eh.
    unfold pop_ok. rewrite Hlib. simpl. rewrite removelast_app1. exact IH.
  - simpl. rewrite rev_involutive. reflexivity.
Qed.

Lemma drop_while_incl {A} (f : A -> bool) l : exists p, l = p ++ drop_while f l /\ forallb f p = true
   /\ (match drop_while f l with [] => True | a :: _ => f a = false end).
Proof.
  induction l as [|a l (p & Hp & Hf & Hd)]; simpl.
  - exists []; auto.
  - destruct (f a) eqn:Ef.
    + exists (a :: p); simpl. rewrite Ef, Hf. split; [congruence|]. split; auto.
    + exists []; simpl. auto.
Qed.

(** [drop_old_suffix]: a prefix remains; everything dropped is old; the newest remaining one is not. *)
Lemma drop_old_suffix_spec cutoff h :
  exists dropped, h = drop_old_suffix cutoff h ++ dropped
    /\ Forall (fun f => older_than cutoff f = true) dropped
    /\ (forall f, last_opt (drop_old_suffix cutoff h) = Some f -> older_than cutoff f = false).
Proof.
  destruct (drop_while_incl (older_than cutoff) (rev h)) as (p & Hp & Hf & Hd).
  exists (rev p). unfold drop_old_suffix. split; [|split].
  - rewrite <- rev_app_distr, <- Hp, rev_involutive. reflexivity.
  - apply Forall_forall. intros f Hin. rewrite forallb_forall in Hf. apply Hf. apply in_rev; auto.
  - intros f. destruct (drop_while (older_than cutoff) (rev h)) as [|a l] eqn:Ed; [discriminate|].
    simpl. rewrite last_opt_app. intros [= <-]; exact Hd.
Qed.

Lemma pruneHistory_char (Hlib : lib_strict L = false) (s : St E) :
  pruneHistory L s =
    Ok (if p_rewind (par s) then
          mkSt (par s) (core s)
               (drop_old_suffix (tsub (f_ts (c_cur (core s))) (p_window (par s))) (hist s)) (cq s) (mq s)
        else s).
Proof.
  unfold pruneHistory. destruct (p_rewind (par s)); simpl; [|reflexivity].
  rewrite prune_loop_char by auto. reflexivity.
Qed.

(** With any library: pruning changes nothing but the history, and keeps a prefix. *)
Lemma prune_loop_prefix cutoff : forall base h h',
  prune_loop L cutoff base h = Ok h' -> exists d, h = h' ++ d.
Proof.
  induction base as [|b IH]; intros h h' Hp; cbn [prune_loop] in Hp.
  - injection Hp as ->. exists []. rewrite app_nil_r; auto.
  - destruct (nth_error h b) as [s|]; [|discriminate].
    destruct (tlt (f_ts s) cutoff).
    + destruct h as [|a0 h0] eqn:Eh; [discriminate|]. rewrite <- Eh in *.
      destruct (pop_ok L (S b) (length h)); [|discriminate].
      apply IH in Hp as [d Hd].
      assert (Hn : h <> []) by congruence.
      exists (d ++ [last h s]). rewrite app_assoc, <- Hd. apply app_removelast_last; auto.
    + injection Hp as ->. exists []. rewrite app_nil_r; auto.
Qed.

Lemma pruneHistory_frame (s s' : St E) : pruneHistory L s = Ok s' ->
  par s' = par s /\ core s' = core s /\ cq s' = cq s /\ mq s' = mq s
  /\ (exists d, hist s = hist s' ++ d) /\ (p_rewind (par s) = false -> s' = s).
Proof.
  unfold pruneHistory. destruct (p_rewind (par s)) eqn:Er; simpl.
  - intros Hp. apply obind_ok in Hp as (h & Hh & He). injection He as <-. simpl.
    apply prune_loop_prefix in Hh. repeat split; auto. discriminate.
  - intros [= <-]. repeat split; auto. exists []. rewrite app_nil_r; auto.
Qed.

(** The one fact about comparisons needed here; it holds for IEEE doubles including NaN. *)
Definition LtNotLe : Prop := forall a b : TT, tlt a b = true -> tle b a = false.

(** What rewindHistory computes, for every history; in particular it never has undefined
    behaviour with libstdc++ iterators. *)
Definition rewind_result (s : St E) (ts : TT) : bool * St E * list (FState E) :=
  if tlt (f_ts (c_cur (core s))) ts then (true, s, [])
  else match hist s with
       | [] => (false, s, [])
       | front :: _ =>
         if tlt (f_ts front) ts then
           let post := filter (at_or_after ts) (hist s) in
           let h1 := firstn (length (hist s) - length post) (hist s) in
           (true,
            mkSt (par s) (set_cur (core s) (last h1 front)) (removelast h1) (cq s) (mq s),
            post ++ [c_cur (core s)])
         else (false, s, [])
       end.

Lemma last_opt_last {A} (l : list A) a d : last_opt l = Some a -> last l d = a.
Proof.
  destruct l as [|b l]; [discriminate|]. intros Hl.
  destruct (last_opt_nonempty (b :: l)) as (l' & a' & Hl' & Ha); [discriminate|].
  rewrite Hl' in *. rewrite Ha in Hl. injection Hl as ->. apply last_last.
Qed.

Lemma rewindHistory_char (Hlib : lib_strict L = false) (Hc : LtNotLe) (s : St E) ts :
  rewindHistory L s ts = Ok (rewind_result s ts).
Proof.
  unfold rewindHistory, rewind_result.
  destruct (tlt (f_ts (c_cur (core s))) ts) eqn:E1; [reflexivity|].
  destruct (hist s) as [|front h] eqn:Eh; [reflexivity|].
  destruct (tlt (f_ts front) ts) eqn:E2; [|reflexivity].
  rewrite <- Eh.
  rewrite rewind_loop_char by auto. cbn [obind]. rewrite firstn_all.
  destruct (last_opt_nonempty
    (firstn (length (hist s) - length (filter (at_or_after ts) (hist s))) (hist s)))
    as (l' & a & Hl & Hlast).
  - rewrite Eh. cbn [filter]. change (at_or_after ts front) with (tle ts (f_ts front)).
    rewrite (Hc _ _ E2).
    pose proof (filter_length_le (at_or_after ts) h).
    cbn [length]. destruct (S (length h) - length (filter (at_or_after ts) h)) eqn:En; [lia|discriminate].
  - rewrite Hlast. rewrite rev_app_distr, rev_involutive, (last_opt_last _ _ front Hlast). reflexivity.
Qed.
End Loops.
