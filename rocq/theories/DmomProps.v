(* Theorems about moments and rotation of directional spectra (C151). *)
From Coq Require Import Reals ZArith List Bool String Ascii.
From Verif Require Import Base PolyModel ProcModel SpectModel SpectSpec DmomModel DmomSpec DmomProofs DmomProofs2 DmomProofs3.
Import ListNotations.
Local Open Scope R_scope.

(* Every returned moment but myt is the integral that its name says, and all wanted moments are returned once. *)

Theorem c151_moments : forall s nt nw nr v, directional s nt nw -> v <> EmptyString ->
  exists m es, moment2 s nr (Some v) = Ok (m, map word es) /\ List.length m = List.length es /\ NoDup es /\
    (forall e, In e es <-> wanted nr (mentions "x" v) (mentions "y" v) (mentions "t" v) e) /\
    forall i a b c, (i < List.length es)%nat -> nth i es (0, 0, 0)%nat = (a, b, c) -> (a, b, c) <> (0, 1, 1)%nat -> nth i m 0 = integral s nt nw a b c.
Proof. exact (moments_ok). Qed.
Print Assumptions c151_moments.

Theorem c151_letters : forall s nr v v', v <> EmptyString -> v' <> EmptyString ->
  (forall c, In c ["x"; "y"; "t"]%char -> mentions c v = mentions c v') -> moment2 s nr (Some v) = moment2 s nr (Some v').
Proof. exact (letters). Qed.
Print Assumptions c151_letters.

Theorem c151_default : forall s nr, moment2 s nr None = moment2 s nr (Some (if (nr <=? 1)%Z then "x" else "xt")%string).
Proof. exact (moments_default). Qed.
Print Assumptions c151_default.

Theorem c151_errors : forall s nr v, (stype s <> "dir" -> stype s <> "encdir" -> stype s <> "k2d" -> moment2 s nr v = Err ValueError)%string /\
  ((stype s = "dir" \/ stype s = "encdir")%string -> moment2 s nr (Some EmptyString) = Err IndexError).
Proof. exact (moments_errors). Qed.
Print Assumptions c151_errors.

Example c151_case : exists m, moment2 demo 4 (Some "Xy"%string) = Ok (m, ["m0"; "mx"; "my"; "mxx"; "myy"; "mxy"; "mxxxx"; "myyyy"; "mxxxy"; "mxxyy"; "mxyyy"]%string) /\ nth 0 m 0 = PI / 3.
Proof. exact (moments_case). Qed.

(* The moment myt. *)

Theorem c151_myt : forall s nt nw nr v m text i, directional s nt nw -> moment2 s nr (Some v) = Ok (m, text) -> nth i text ""%string = "myt"%string -> gx s <> 0 -> gy s <> 0 ->
  nth i m 0 = gx s / gy s * integral s nt nw 1 0 1.
Proof. exact (myt_value). Qed.
Print Assumptions c151_myt.

Theorem c151_myt_refuted : exists s m, directional s 3 3 /\ moment2 s 2 (Some "yt"%string) = Ok (m, ["m0"; "my"; "mt"; "myy"; "mtt"; "myt"]%string) /\ integral s 3 3 0 1 1 > 0 /\ nth 5 m 0 = 0.
Proof. exact (myt_refuted). Qed.
Print Assumptions c151_myt_refuted.

(* A documented type that cannot be used. *)

Theorem c151_k2d_refuted : forall s nr v, stype s = "k2d"%string -> v <> Some EmptyString -> moment2 s nr v = Err AttributeError.
Proof. exact (moments_k2d). Qed.
Print Assumptions c151_k2d_refuted.

(* The sum of the moments of second order in space does not depend on the direction of the axes. *)

Theorem c151_invariant : forall s nt nw phi, (1 <= nt)%nat -> (1 <= nw)%nat -> gx s = gy s ->
  integral s nt nw 2 0 0 + integral s nt nw 0 2 0 = integral (turned s phi) nt nw 2 0 0 + integral (turned s phi) nt nw 0 2 0.
Proof. exact (second_order). Qed.
Print Assumptions c151_invariant.

(* Rotation. *)

Theorem c151_rotate : forall s phi th w, sargs2 s = Listed (- PI :: th) w ->
  exists p, rotate s phi = (None, turned s p) /\ - PI <= p < PI /\ same_direction p (sphi s + phi).
Proof. exact (rotate_ok). Qed.
Print Assumptions c151_rotate.

Theorem c151_rotate_twice : forall s a b th w, sargs2 s = Listed (- PI :: th) w -> exists p q, rotate (snd (rotate s a)) b = (None, turned s p) /\ rotate s (a + b) = (None, turned s q) /\ p = q.
Proof. exact (rotate_twice). Qed.
Print Assumptions c151_rotate_twice.

Example c151_rotate_case : exists p, rotate (Spec2 "dir" [[1]; [2]] (Listed [- PI; 0] [1]) 0 1 1) (PI / 2) = (None, Spec2 "dir" [[1]; [2]] (Listed [- PI; 0] [1]) p 1 1) /\ same_direction p (PI / 2).
Proof. exact (rotate_case). Qed.

Theorem c151_tuple_refuted : forall s phi a0 a1, sargs2 s = Tuple a0 a1 -> a0 <> [] ->
  exists p, rotate s phi = (Some TypeError, turned s p) /\ - PI <= p < PI /\ same_direction p (sphi s + phi).
Proof. exact (rotate_tuple). Qed.
Print Assumptions c151_tuple_refuted.

Theorem c151_axis_refuted : forall s phi w0 w th, sargs2 s = Listed (w0 :: w) th -> freq (snd (rotate s phi)) 0 = - PI.
Proof. exact (rotate_axis). Qed.
Print Assumptions c151_axis_refuted.

Theorem c151_angle_refuted : forall s phi t0 th w i, sargs2 s = Listed (t0 :: th) w -> (i < List.length (t0 :: th))%nat ->
  let s' := snd (rotate s phi) in same_direction (at_R (first_of (sargs2 s')) i - sphi s') (at_R (first_of (sargs2 s)) i - sphi s - phi - 2 * (t0 + PI)).
Proof. exact (rotate_wrong). Qed.
Print Assumptions c151_angle_refuted.
