(** The one-sided simulation of FB_Follow.v for two filter algorithms: the relations are given on vectors and
    matrices with sizes in the types. *)
From mathcomp Require Import all_ssreflect all_algebra.
From Verif Require Import Outcome FB_Model FB_Sim FB_AlgSim FB_Follow KF_Model FB_Alg.
Set Implicit Arguments.
Unset Strict Implicit.
Unset Printing Implicit Defensive.
Import GRing.Theory.
Local Open Scope ring_scope.

Section AlgFollow.
Variables (R : realFieldType) (TT : TimeOps) (n1 n2 m : nat) (F1 : FilterAlg R TT n1 m) (F2 : FilterAlg R TT n2 m).

(** relations on estimates (state and covariance), controls, control covariances, system models,
    measurement models (by their index; [MC]: covariance just set), measurements (with covariance) *)
Variables (X : 'cV[R]_n1 -> 'M[R]_n1 -> 'cV[R]_n2 -> 'M[R]_n2 -> Prop)
          (U : 'cV[R]_m -> 'cV[R]_m -> Prop) (UN : DV R -> DV R -> Prop) (W : 'M[R]_m -> 'M[R]_m -> Prop)
          (S : fa_sys F1 -> fa_sys F2 -> Prop)
          (M MC : nat -> forall k, fa_meas F1 k -> fa_meas F2 k -> Prop)
          (Z : nat -> forall k, 'cV[R]_k -> 'M[R]_k -> 'cV[R]_k -> 'M[R]_k -> Prop).

Variable allow : ub -> Prop.
Notation XD := (FB_AlgSim.XD X).
Notation UD := (FB_AlgSim.UD U UN).
Notation WD := (FB_AlgSim.WD W).
Notation MD := (FB_AlgSim.MD M).
Notation ZD := (FB_AlgSim.ZD Z).

(** what is asked of the two algorithms *)
Record AlgFollows : Prop := {
  af_zero : U 0 0;
  af_empty : UN (dv (0 : 'cV[R]_0)) (dv (0 : 'cV[R]_0));
  af_Rc : forall s1 s2, S s1 s2 -> W (fa_Rc s1) (fa_Rc s2);
  af_setRc : forall s1 s2 r1 r2, S s1 s2 -> W r1 r2 -> S (fa_setRc s1 r1) (fa_setRc s2 r2);
  af_check : forall s1 s2, S s1 s2 -> fa_check s1 = fa_check s2;
  af_isStat : forall s1 s2 x1 p1 x2 p2 d1 d2, S s1 s2 -> X x1 p1 x2 p2 -> UD d1 d2 -> fa_check s1 -> fa_isStat s1 x1 d1 = fa_isStat s2 x2 d2;
  af_proc : forall s1 s2 x1 p1 x2 p2 d1 d2, S s1 s2 -> X x1 p1 x2 p2 -> UD d1 d2 -> fa_check s1 -> S (fa_proc s1 x1 d1) (fa_proc s2 x2 d2);
  af_make : forall s1 s2 x1 p1 x2 p2 d1 d2, S s1 s2 -> X x1 p1 x2 p2 -> UD d1 d2 -> fa_check s1 ->
    let r1 := fa_make (fa_proc s1 x1 d1) x1 p1 in let r2 := fa_make (fa_proc s2 x2 d2) x2 p2 in X r1.1 r1.2 r2.1 r2.2;
  af_predict : forall s1 s2 x1 p1 x2 p2 u1 u2 dt, S s1 s2 -> X x1 p1 x2 p2 -> U u1 u2 ->
    wrel allow (fun r1 r2 => S r1.1.1 r2.1.1 /\ X r1.1.2 r1.2 r2.1.2 r2.2)
         (fa_predict s1 x1 p1 u1 dt) (fa_predict s2 x2 p2 u2 dt);
  af_setCov : forall i k (a : fa_meas F1 k) (b : fa_meas F2 k) z1 z2 Q1 Q2, M i a b -> Z i z1 Q1 z2 Q2 -> MC i (fa_setCov a Q1) (fa_setCov b Q2);
  af_MC : forall i k (a : fa_meas F1 k) (b : fa_meas F2 k), MC i a b -> M i a b;
  af_mcheck : forall i k (a : fa_meas F1 k) (b : fa_meas F2 k), MC i a b -> fa_mcheck a = fa_mcheck b;
  af_misStat : forall i k (a : fa_meas F1 k) (b : fa_meas F2 k) x1 p1 x2 p2 z1 z2 Q1 Q2, MC i a b -> X x1 p1 x2 p2 -> Z i z1 Q1 z2 Q2 ->
    fa_mcheck a -> fa_misStat a x1 z1 = fa_misStat b x2 z2;
  af_mproc : forall i k (a : fa_meas F1 k) (b : fa_meas F2 k) x1 p1 x2 p2 z1 z2 Q1 Q2, MC i a b -> X x1 p1 x2 p2 -> Z i z1 Q1 z2 Q2 ->
    fa_mcheck a -> MC i (fa_mproc a x1 z1) (fa_mproc b x2 z2);
  af_mmake : forall i k (a : fa_meas F1 k) (b : fa_meas F2 k) x1 p1 x2 p2 z1 z2 Q1 Q2, MC i a b -> X x1 p1 x2 p2 -> Z i z1 Q1 z2 Q2 ->
    fa_mcheck a -> let r1 := fa_mmake (fa_mproc a x1 z1) x1 p1 in let r2 := fa_mmake (fa_mproc b x2 z2) x2 p2 in X r1.1 r1.2 r2.1 r2.2;
  af_correct : forall i k s1 s2 (a : fa_meas F1 k) (b : fa_meas F2 k) x1 p1 x2 p2 z1 z2 Q1 Q2 dt,
    S s1 s2 -> MC i a b -> X x1 p1 x2 p2 -> Z i z1 Q1 z2 Q2 ->
    wrel allow (fun r1 r2 => [/\ S r1.1.1.1 r2.1.1.1, M i r1.1.1.2 r2.1.1.2 & X r1.1.2 r1.2 r2.1.2 r2.2])
         (fa_correct s1 a x1 p1 z1 dt) (fa_correct s2 b x2 p2 z2 dt)
}.

Hypothesis H : AlgFollows.

Lemma UD_size v1 v2 : UD v1 v2 -> projT1 v1 = projT1 v2.
Proof. by case=> [[u1 [u2 [-> -> _]]]|[-> _ _]]. Qed.

Lemma control_fw s1 s2 x1 P1 x2 P2 d1 d2 u1 u2 R1 R2 dt :
  S s1 s2 -> XD x1 P1 x2 P2 -> UD d1 d2 -> UD u1 u2 -> WD R1 R2 ->
  wrel allow (fun r1 r2 => S (fst (fst r1)) (fst (fst r2)) /\ XD (snd (fst r1)) (snd r1) (snd (fst r2)) (snd r2))
    (control_update (E := alg_env F1) s1 x1 P1 d1 u1 R1 dt) (control_update (E := alg_env F2) s2 x2 P2 d2 u2 R2 dt).
Proof.
move=> hs [y1 [p1 [y2 [p2 [-> -> -> -> hx]]]]] hd hu [r1 [r2 [-> -> hr]]].
rewrite /control_update /= -(af_check H hs).
have goP : wrel allow (fun r1 r2 => S (fst (fst r1)) (fst (fst r2)) /\ XD (snd (fst r1)) (snd r1) (snd (fst r2)) (snd r2))
   (let* sy1 := (let* Rc := mat_of m (dm r1) in Ok (fa_setRc s1 Rc)) in
    let* x := vec_of n1 (dv y1) in let* P := mat_of n1 (dm p1) in let* u := vec_of m u1 in
    let* r := fa_predict sy1 x P u dt in Ok (r.1.1, dv r.1.2, dm r.2))
   (let* sy1 := (let* Rc := mat_of m (dm r2) in Ok (fa_setRc s2 Rc)) in
    let* x := vec_of n2 (dv y2) in let* P := mat_of n2 (dm p2) in let* u := vec_of m u2 in
    let* r := fa_predict sy1 x P u dt in Ok (r.1.1, dv r.1.2, dm r.2)).
  rewrite !mat_of_dm !vec_of_dv /=.
  case: hu => [[w1 [w2 [-> -> hu]]]|[eu ne _]]; last by rewrite (vec_of_ne ne) (vec_of_ne (v := u2)) // -eu.
  rewrite !vec_of_dv /=; apply: wrel_bind; first exact: (af_predict H _ (af_setRc H hs hr) hx hu).
  move=> [[a b] c] [[a' b'] c'] [h1 h2]; split => //=; exists b, c, b', c'; by split.
have [ck|ck] := boolP (fa_check s1); last exact: goP.
rewrite !vec_of_dv /= -(af_isStat H hs hx hd ck).
case: (fa_isStat s1 y1 d1) => /=; last by move: goP; rewrite !mat_of_dm !vec_of_dv /=.
rewrite ?vec_of_dv /= ?mat_of_dm /=; have hp := af_proc H hs hx hd ck.
split => //; have := af_make H hs hx hd ck; cbv zeta; case: (fa_make _ y1 p1) => a b; case: (fa_make _ y2 p2) => a' b' h.
by exists a, b, a', b'.
Qed.

Lemma meas_fw i s1 s2 m1 m2 x1 P1 x2 P2 z1 z2 Q1 Q2 dt :
  S s1 s2 -> MD i m1 m2 -> XD x1 P1 x2 P2 -> ZD i z1 Q1 z2 Q2 ->
  wrel allow (fun r1 r2 => S (fst (fst (fst r1))) (fst (fst (fst r2))) /\ MD i (snd (fst (fst r1))) (snd (fst (fst r2))) /\
                       XD (snd (fst r1)) (snd r1) (snd (fst r2)) (snd r2))
    (meas_update (E := alg_env F1) s1 m1 x1 P1 z1 Q1 dt) (meas_update (E := alg_env F2) s2 m2 x2 P2 z2 Q2 dt).
Proof.
move=> hs [k [a [b [-> -> hm]]]] [y1 [p1 [y2 [p2 [-> -> -> -> hx]]]]] hz; rewrite /meas_update /=.
case: hz => [[k' [w1 [w2 [q1 [q2 [-> -> -> -> hz]]]]]]|[e1 e2 ne]]; last first.
  have [e|ne'] := projT1 Q1 =P k; last first.
    by rewrite (mat_of_ne ne') (mat_of_ne (d := k)) // -e2.
  have nz1 : projT1 z1 <> k by rewrite -e.
  have nz2 : projT1 z2 <> k by rewrite -e1.
  case: Q1 e e2 {ne} => d1 Q1 /= e; subst d1; case: Q2 => d2 Q2 /= e; subst d2.
  rewrite -/(dm Q1) -/(dm Q2) !mat_of_dm /=.
  case: (fa_mcheck _); case: (fa_mcheck _); rewrite ?vec_of_dv /= ?mat_of_dm /= ?(vec_of_ne nz1) ?(vec_of_ne nz2) //=.
have [e|ne'] := k' =P k; last by rewrite !(mat_of_ne (d := k)).
subst k'; rewrite !mat_of_dm /=.
have hc := af_setCov H hm hz; rewrite -(af_mcheck H hc).
have goP : wrel allow (fun r1 r2 => S (fst (fst (fst r1))) (fst (fst (fst r2))) /\ MD i (snd (fst (fst r1))) (snd (fst (fst r2))) /\
                       XD (snd (fst r1)) (snd r1) (snd (fst r2)) (snd r2))
   (let* x := vec_of n1 (dv y1) in let* P := mat_of n1 (dm p1) in let* z := vec_of k (dv w1) in
    let* r := fa_correct s1 (fa_setCov a q1) x P z dt in Ok (r.1.1.1, dmeas r.1.1.2, dv r.1.2, dm r.2))
   (let* x := vec_of n2 (dv y2) in let* P := mat_of n2 (dm p2) in let* z := vec_of k (dv w2) in
    let* r := fa_correct s2 (fa_setCov b q2) x P z dt in Ok (r.1.1.1, dmeas r.1.1.2, dv r.1.2, dm r.2)).
  rewrite !mat_of_dm !vec_of_dv /=; apply: wrel_bind; first exact: (af_correct H _ hs hc hx hz).
  move=> [[[c1 c2] c3] c4] [[[e1 e2] e3] e4] [h1 h2 h3]; split => //; split; first by exists k, c2, e2.
  by exists c3, c4, e3, e4.
have [ck|ck] := boolP (fa_mcheck (fa_setCov a q1)); last by move: goP; rewrite !mat_of_dm !vec_of_dv /=.
rewrite ?vec_of_dv /= ?vec_of_dv /= -(af_misStat H hc hx hz ck).
case: (fa_misStat _ _ _) => /=; last by move: goP; rewrite !mat_of_dm !vec_of_dv /=.
rewrite ?vec_of_dv ?mat_of_dm /=; have hp := af_mproc H hc hx hz ck.
split => //; split; first by eexists k, _, _; split; [| |exact: (af_MC H hp)].
by have := af_mmake H hc hx hz ck; cbv zeta; case: (fa_mmake _ y1 p1) => c d; case: (fa_mmake _ y2 p2) => c' d' h; exists c, d, c', d'.
Qed.

Lemma alg_follows : Follows (E1 := alg_env F1) (E2 := alg_env F2) XD UD WD S MD ZD allow.
Proof.
split => //=.
- have hd d (e : 0%N = d) : dv (0 : 'cV[R]_0) = dv (0 : 'cV[R]_d) by subst d.
  have [e|ne] := 0%N =P m; last by right; split => //; exact: (af_empty H).
  by left; rewrite (hd _ e); exists 0, 0; split => //; exact: (af_zero H).
- exact: UD_size.
- by move=> s1 s2 _; left; exists 0, 0; split => //; exact: (af_zero H).
- by move=> s1 s2 hs; exists (fa_Rc s1), (fa_Rc s2); split => //; exact: (af_Rc H).
- exact: control_fw.
- exact: meas_fw.
Qed.

(** two runs on related data end with related estimates, or both leave the defined behaviours *)
Notation est_rel := (FB_AlgSim.est_rel X).
Lemma alg_run_fw (L1 : Lib (alg_env F1)) (L2 : Lib (alg_env F2)) sy1 sy2 ms1 ms2 x1 P1 x2 P2 t ops1 ops2 :
  same_lib L1 L2 -> S sy1 sy2 -> meas_rel (E1 := alg_env F1) (E2 := alg_env F2) MD 0 ms1 ms2 -> X x1 P1 x2 P2 ->
  List.Forall2 (op_rel (E1 := alg_env F1) (E2 := alg_env F2) XD UD S MD ZD) ops1 ops2 ->
  wrel allow est_rel (run L1 ops1 (new_filter (E := alg_env F1) sy1 ms1 (dv x1) (dm P1) t))
               (run L2 ops2 (new_filter (E := alg_env F2) sy2 ms2 (dv x2) (dm P2) t)).
Proof.
move=> hL hs hm hx ho.
have hX : XD (dv x1) (dm P1) (dv x2) (dm P2) by exists x1, P1, x2, P2.
apply: wrel_impl; last exact: (run_new_fw _ _ _ _ _ _ _ alg_follows L1 L2 hL _ _ _ _ _ _ _ _ t _ _ hs hm hX ho).
by move=> s1 s2 [_ [[[h1 [h2 _]] _] _]].
Qed.
End AlgFollow.
