(* Theorems about getshipchar and gravity (C147). *)
From Coq Require Import Reals ZArith List Bool String.
From Verif Require Import Base ShipModel ShipSpec ShipProofs.
Import ListNotations.
Local Open Scope R_scope.

(* The property that is given comes back, rounded. *)

Theorem c147_given_kept : forall k v, In k six -> 0 < v -> exists d, getshipchar [(k, v)] = Ok d /\
  (forall e, In (k, e) rounded_to -> exists r, has d k r /\ (exists z : Z, r = e * IZR z) /\ Rabs (r - v) <= e / 2) /\
  (k = "propeller_diameter"%string -> exists l r, has d k (12 / 100 * Rpower r (3 / 4)) /\ has d "length" r /\ v = 12 / 100 * Rpower l (3 / 4) /\ Rabs (r - l) <= 1 / 2).
Proof. exact (given_kept). Qed.
Print Assumptions c147_given_kept.

(* A bigger ship is bigger in every respect. *)

Theorem c147_bigger : forall name x y d d' k a b, 0 < x -> x <= y -> getshipchar [(name, x)] = Ok d -> getshipchar [(name, y)] = Ok d' -> In k ["max_deadweight"; "length"; "beam"; "draught"; "service_speed"]%string -> has d k a -> has d' k b -> a <= b.
Proof. exact (bigger). Qed.
Print Assumptions c147_bigger.

(* What is given has no standard deviation, except for the deadweight because of a misspelt name. *)

Theorem c147_deviation : forall k v, In k six -> k <> "max_deadweight"%string -> exists d, getshipchar [(k, v)] = Ok d /\ has d (k ++ "STD")%string 0.
Proof. exact (deviation). Qed.
Print Assumptions c147_deviation.

Theorem c147_deviations : forall name v d, getshipchar [(name, v)] = Ok d ->
  (forall k e, In (k, e) relative -> k = "max_deadweight"%string \/ substring 0 2 k <> substring 0 2 name -> exists x, has d k x /\ has d (k ++ "STD")%string (x * e)) /\
  (substring 0 2 name <> "le"%string -> exists l, has d "length" l /\ has d "lengthSTD" (Rpower l (13 / 100))) /\
  (substring 0 2 name <> "pr"%string -> exists l, has d "length" l /\ has d "propeller_diameter" (12 / 100 * Rpower l (3 / 4)) /\ has d "propeller_diameterSTD" (12 / 100 * Rpower (Rpower l (13 / 100)) (3 / 4))).
Proof. exact (deviations). Qed.
Print Assumptions c147_deviations.

Theorem c147_deadweight : forall v, exists d, getshipchar [("max_deadweight"%string, v)] = Ok d /\ has d "max_deadweightSTD" (1 / 10 * rint v) /\ has d "max_deadweigthSTD" 0.
Proof. exact (deadweight_deviation). Qed.
Print Assumptions c147_deadweight.

Theorem c147_deadweight_refuted : exists d s, getshipchar [("max_deadweight"%string, 1000)] = Ok d /\ has d "max_deadweightSTD" s /\ s = 100.
Proof. exact (deadweight_refuted). Qed.
Print Assumptions c147_deadweight_refuted.

Theorem c147_first_letters : forall name name' v, substring 0 2 name = substring 0 2 name' -> getshipchar [(name, v)] = getshipchar [(name', v)].
Proof. exact (first_letters). Qed.
Print Assumptions c147_first_letters.

Theorem c147_refused : forall kw, (getshipchar kw = Err ValueError <-> List.length kw <> 1%nat) /\ (forall name v, kw = [(name, v)] -> (getshipchar kw = Err KeyError <-> ~ In (substring 0 2 name) ["le"; "be"; "dr"; "ma"; "se"; "pr"]%string)).
Proof. exact (refused). Qed.
Print Assumptions c147_refused.

(* The acceleration of gravity grows from the equator to the poles. *)

Theorem c147_gravity : forall phi, gravity 0 <= gravity phi <= gravity 90 /\ gravity 0 = 978049 / 100000.
Proof. exact (gravity_bounds). Qed.
Print Assumptions c147_gravity.

Theorem c147_gravity_even : forall phi, gravity (- phi) = gravity phi.
Proof. exact (gravity_even). Qed.
Print Assumptions c147_gravity_even.

Theorem c147_gravity_increasing : forall a b, 0 <= a -> a <= b -> b <= 90 -> gravity a <= gravity b.
Proof. exact (gravity_increasing). Qed.
Print Assumptions c147_gravity_increasing.

Example c147_case : In "beam"%string six /\ 0 < 20 /\ exists d, getshipchar [("beam"%string, 20)] = Ok d /\ has d "beamSTD" 0.
Proof. exact (ship_case). Qed.
