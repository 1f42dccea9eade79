(** [forgetful] of Props_Share.v for a filter on real vectors (FB_Alg.v), from conditions on the
    algorithm. *)
From mathcomp Require Import all_ssreflect all_algebra.
From Verif Require Import Outcome FB_Model FB_Spec FB_Sim KF_Model FB_Alg Props_Share.
Set Implicit Arguments.
Unset Strict Implicit.
Unset Printing Implicit Defensive.
Import GRing.Theory.
Local Open Scope ring_scope.

Section Forget.
Variables (R : realFieldType) (TT : TimeOps) (n m : nat) (F : FilterAlg R TT n m).
Variables (SC : fa_sys F -> Prop) (MC : nat -> DMeas F -> Prop) (MS : nat -> forall k, fa_meas F k -> fa_meas F k -> Prop) (Rc : 'M[R]_m).
Record AlgForget : Prop := {
  af_Rc : forall o, SC o -> fa_Rc o = Rc;
  af_setRc : forall o, SC o -> SC (fa_setRc o Rc);
  af_check : forall o1 o2, SC o1 -> SC o2 -> fa_check o1 = fa_check o2;
  af_isStat : forall o1 o2 x d, SC o1 -> SC o2 -> fa_isStat o1 x d = fa_isStat o2 x d;
  af_proc : forall o x d, SC o -> SC (fa_proc o x d);
  af_make : forall o1 o2 x P, SC o1 -> SC o2 -> fa_make o1 x P = fa_make o2 x P;
  af_predict : forall o1 o2 x P u dt, SC o1 -> SC o2 ->
    orel (fun r1 r2 => [/\ SC r1.1.1, SC r2.1.1, r1.1.2 = r2.1.2 & r1.2 = r2.2]) (fa_predict o1 x P u dt) (fa_predict o2 x P u dt);
  af_same : forall i q1 q2, MC i q1 -> MC i q2 -> projT1 q1 = projT1 q2;
  af_setCov : forall i k (q1 q2 : fa_meas F k) Q, MC i (dmeas q1) -> MC i (dmeas q2) -> MS i (fa_setCov q1 Q) (fa_setCov q2 Q);
  af_MS : forall i k (q1 q2 : fa_meas F k), MS i q1 q2 -> MC i (dmeas q1) /\ MC i (dmeas q2);
  af_mcheck : forall i k (q1 q2 : fa_meas F k), MS i q1 q2 -> fa_mcheck q1 = fa_mcheck q2;
  af_misStat : forall i k (q1 q2 : fa_meas F k) x z, MS i q1 q2 -> fa_misStat q1 x z = fa_misStat q2 x z;
  af_mproc : forall i k (q1 q2 : fa_meas F k) x z, MS i q1 q2 -> MS i (fa_mproc q1 x z) (fa_mproc q2 x z);
  af_mmake : forall i k (q1 q2 : fa_meas F k) x P, MS i q1 q2 -> fa_mmake q1 x P = fa_mmake q2 x P;
  af_correct : forall i k o1 o2 (q1 q2 : fa_meas F k) x P z dt, SC o1 -> SC o2 -> MS i q1 q2 ->
    orel (fun r1 r2 => [/\ SC r1.1.1.1 /\ SC r2.1.1.1, MC i (dmeas r1.1.1.2), MC i (dmeas r2.1.1.2), r1.1.2 = r2.1.2 & r1.2 = r2.2])
         (fa_correct o1 q1 x P z dt) (fa_correct o2 q2 x P z dt)
}.
Hypothesis H : AlgForget.
Let E := alg_env F.

Lemma alg_forgetful : forgetful (E := E) SC MC (dm Rc).
Proof.
split.
- by [].
- by move=> o h; rewrite /= (af_Rc H h).
- move=> o1 o2 v M d u dt h1 h2; rewrite /control_update /= (af_check H h1 h2).
  have goP : orel (fun r1 r2 : Sys E * V E * Mx E => SC r1.1.1 /\ SC r2.1.1 /\ r1.1.2 = r2.1.2 /\ r1.2 = r2.2)
   (let* sy1 := (let* Rc := mat_of m (dm Rc) in Ok (fa_setRc o1 Rc)) in
    let* x := vec_of n v in let* P := mat_of n M in let* u := vec_of m u in
    let* r := fa_predict sy1 x P u dt in Ok (r.1.1, dv r.1.2, dm r.2))
   (let* sy1 := (let* Rc := mat_of m (dm Rc) in Ok (fa_setRc o2 Rc)) in
    let* x := vec_of n v in let* P := mat_of n M in let* u := vec_of m u in
    let* r := fa_predict sy1 x P u dt in Ok (r.1.1, dv r.1.2, dm r.2)).
    rewrite mat_of_dm /=; case: (vec_of n v) => [x|//]; case: (mat_of n M) => [P|//]; case: (vec_of m u) => [w|//] /=.
    apply: orel_bind; first exact: (af_predict H x P w dt (af_setRc H h1) (af_setRc H h2)).
    by move=> [[a1 a2] a3] [[b1 b2] b3] [/= ? ? -> ->].
  case: (fa_check o2); last exact: goP.
  case ev: (vec_of n v) => [x|//] /=; rewrite (af_isStat H x d h1 h2); case: (fa_isStat o2 x d) => /=; last by move: goP; rewrite ev.
  case: (mat_of n M) => [P|//] /=; rewrite (af_make H x P (af_proc H x d h1) (af_proc H x d h2)).
  by repeat split; apply: (af_proc H).
- move=> i o1 o2 [k a] [k' b] v M z Q dt h1 h2 hm hm'; have e : k = k' := af_same H hm hm'.
  subst k'; rewrite /meas_update /=; case: (mat_of k Q) => [W|//] /=.
  have hc := af_setCov H W hm hm'; rewrite (af_mcheck H hc).
  have goP : orel (fun r1 r2 : Sys E * Meas E * V E * Mx E => SC r1.1.1.1 /\ SC r2.1.1.1 /\ MC i r1.1.1.2 /\ MC i r2.1.1.2 /\ r1.1.2 = r2.1.2 /\ r1.2 = r2.2)
   (let* x := vec_of n v in let* P := mat_of n M in let* z := vec_of k z in
    let* r := fa_correct o1 (fa_setCov a W) x P z dt in Ok (r.1.1.1, dmeas r.1.1.2, dv r.1.2, dm r.2))
   (let* x := vec_of n v in let* P := mat_of n M in let* z := vec_of k z in
    let* r := fa_correct o2 (fa_setCov b W) x P z dt in Ok (r.1.1.1, dmeas r.1.1.2, dv r.1.2, dm r.2)).
    case: (vec_of n v) => [x|//]; case: (mat_of n M) => [P|//]; case: (vec_of k z) => [w|//] /=.
    apply: orel_bind; first exact: (af_correct H x P w dt h1 h2 hc).
    by move=> [[[a1 a2] a3] a4] [[[b1 b2] b3] b4] [/= [? ?] ? ? -> ->].
  case: (fa_mcheck _); last exact: goP.
  case ev: (vec_of n v) => [x|//] /=; case ez: (vec_of k z) => [w|//] /=; rewrite (af_misStat H x w hc).
  case: (fa_misStat _ x w) => /=; last by move: goP; rewrite ev /= ez.
  case: (mat_of n M) => [P|//] /=; have hp := af_mproc H x w hc; rewrite (af_mmake H x P hp).
  have [? ?] := af_MS H hp; by repeat split.
Qed.
End Forget.
