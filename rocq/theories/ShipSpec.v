(* Properties of ships. *)
From Coq Require Import Reals List String.
From Verif Require Import Base ShipModel.
Import ListNotations.
Local Open Scope R_scope.

Definition six : list string := ["max_deadweight"; "length"; "beam"; "draught"; "service_speed"; "propeller_diameter"]%string.
(* the names with their precision: length and deadweight in whole numbers, the next three in tenths *)
Definition rounded_to : list (string * R) := [("max_deadweight", 1); ("length", 1); ("beam", 1 / 10); ("draught", 1 / 10); ("service_speed", 1 / 10)]%string.
(* v is the number of the dictionary *)
Definition has (d : dict) (k : string) (v : R) : Prop := lookup k d = Some v.
(* standard deviations in proportion to the value *)
Definition relative : list (string * R) := [("max_deadweight", 10 / 100); ("beam", 10 / 100); ("draught", 22 / 100); ("service_speed", 10 / 100)]%string.
