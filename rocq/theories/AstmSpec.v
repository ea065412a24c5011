(* Specification for ASTM rainflow counting. *)
From Verif Require Import Base CrossSpec AstmModel.
Local Open Scope Z_scope.

(* strictly alternating: every inner point is a strict local extreme *)
Fixpoint zigzag (up : bool) (l : list Z) : Prop :=
  match l with
  | a :: ((b :: _) as t) => (if up then a < b else b < a) /\ zigzag (negb up) t
  | _ => True
  end.

(* the step from a to b crosses the level u (levels are half-open: a value equal
   to u is above it) *)
Definition crosses (u a b : Z) : nat := if Bool.eqb (a <? u) (b <? u) then 0 else 1.

(* number of times the sequence crosses the level u *)
Fixpoint crossings (u : Z) (l : list Z) : nat :=
  match l with
  | a :: ((b :: _) as t) => crosses u a b + crossings u t
  | _ => 0
  end.

(* what a counted cycle contributes at level u: a half cycle passes once through
   every level of its range (mean - ampl, mean + ampl], a full cycle twice *)
Definition row_crossings (u : Z) (c : cell3) : nat :=
  match c with
  | Zero3 => 0
  | Counted3 r =>
      if (r_sum r - r_range r <? 2 * u) && (2 * u <=? r_sum r + r_range r)
      then (if r_full r then 2 else 1) else 0
  end.
Definition total (f : cell3 -> nat) (l : list cell3) : nat := fold_right (fun c s => f c + s)%nat 0%nat l.

(* first three columns of a five column row *)
Definition drop_times (c : cell5) : cell3 :=
  match c with
  | Zero5 => Zero3
  | Counted5 r => Counted3 (Row3 (s_range r) (s_sum r) (s_full r))
  end.

(* a five column row describes two points p < q of the input *)
Definition RowOk (tp t : list Z) (r : row5) : Prop :=
  exists p q, (p < q < length tp)%nat /\
    s_range r = Z.abs (nth q tp 0 - nth p tp 0) /\ s_sum r = nth q tp 0 + nth p tp 0 /\
    s_begin r = nth p t 0 /\ s_half_period r = nth q t 0 - nth p t 0.
