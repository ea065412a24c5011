(* Shapes, positions and multiples of pi. *)
From Coq Require Import List Arith ZArith String DecimalString DecimalZ.
From Verif Require Import Base BcastModel.
Import ListNotations.

(* an array of shape s can be stretched to shape t: the axes are matched from the last one on, and every axis of s has
   the length of its match or length 1 *)
Definition fits (s t : list nat) : Prop :=
  (List.length s <= List.length t)%nat /\
  forall i, (i < List.length s)%nat ->
    let d := nth (List.length s - 1 - i) s 0%nat in let e := nth (List.length t - 1 - i) t 0%nat in d = e \/ d = 1%nat.
Definition well_formed {A} (a : array A) : Prop := List.length (data_of a) = size (shape_of a).
(* the position in row-major order of the element with the indices idx *)
Fixpoint place (s idx : list nat) : nat :=
  match s, idx with _ :: s', i :: idx' => (i * size s' + place s' idx')%nat | _, _ => 0%nat end.
Definition inside (s idx : list nat) : Prop := Forall2 (fun i n => (i < n)%nat) idx s.
(* the element that a stretched array has there: surplus indices in front are left out, and along an axis of length 1 there is one element only *)
Definition own (s idx : list nat) : list nat :=
  map (fun p => if (fst p =? 1)%nat then 0%nat else snd p) (combine s (skipn (List.length idx - List.length s) idx)).
Definition element {A} (d0 : A) (a : array A) (idx : list nat) : A := nth (place (shape_of a) (own (shape_of a) idx)) (data_of a) d0.

(* how a label denotes n pi / d *)
Local Open Scope string_scope.
Definition numeral (s : string) (n : Z) : Prop := option_map Z.of_int (NilZero.int_of_string s) = Some n.
Definition factor_text (s : string) (n : Z) : Prop := (s = "" /\ n = 1%Z) \/ (s = "-" /\ n = (-1)%Z) \/ numeral s n.
Definition divisor_text (s : string) (d : Z) : Prop := (s = "" /\ d = 1%Z) \/ exists r, s = "/" ++ r /\ numeral r d.
Definition pi_text (txt : string) (n d : Z) : Prop := exists a b, txt = a ++ "\pi" ++ b /\ factor_text a n /\ divisor_text b d.
