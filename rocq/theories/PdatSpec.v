(* What PlotData promises (documentation of src/wafo/containers.py). *)
From Coq Require Import Reals List String Ascii Bool.
From Verif Require Import ProcSpec PdatModel.
Import ListNotations.
Local Open Scope R_scope.

(* at least two points with increasing abscissas *)
Definition table (x f : list R) : Prop := List.length x = List.length f /\ (2 <= List.length x)%nat /\ increasing x.
(* g is the polygon through the points *)
Definition polygon (x f : list R) (g : R -> R) : Prop :=
  forall i t, (S i < List.length x)%nat -> at_ x i <= t <= at_ x (S i) ->
    g t = at_ f i + (at_ f (S i) - at_ f i) * ((t - at_ x i) / (at_ x (S i) - at_ x i)).
Definition within (x : list R) (t : R) : Prop := at_ x 0 <= t <= at_ x (List.length x - 1).
(* the columns of a matrix *)
Definition col (rows : list (list R)) (j : nat) : list R := map (fun r => nth j r 0) rows.
(* a vector of data without children *)
Definition curve (x f : list R) : plotdata := PD (D1 f) (Vec x) None.
(* a curve with one child, the lower and the upper confidence limits *)
Definition band (x f : list R) (rows : list (list R)) : plotdata := PD (D1 f) (Vec x) (Some [PD (D2 2 rows) (Vec x) None]).
Definition brackets (f : list R) (rows : list (list R)) : Prop :=
  forall i, (i < List.length f)%nat -> at_ (col rows 0) i <= at_ f i <= at_ (col rows 1) i.
(* texts that are the same but for capitals and surrounding blanks: once the blanks at both ends are
   taken away, the letters agree one by one, a capital counting as its small letter *)
Definition capitals : string := "ABCDEFGHIJKLMNOPQRSTUVWXYZ".
Definition smalls : string := "abcdefghijklmnopqrstuvwxyz".
Definition letter_pairs : list (ascii * ascii) := combine (list_ascii_of_string capitals) (list_ascii_of_string smalls).
Definition same_letter (c d : ascii) : Prop := c = d \/ In (c, d) letter_pairs \/ In (d, c) letter_pairs.
Fixpoint alike (s t : string) : Prop :=
  match s, t with
  | EmptyString, EmptyString => True
  | String c s', String d t' => same_letter c d /\ alike s' t'
  | _, _ => False
  end.
(* what Python calls white space: tab, line feed, vertical tab, form feed, carriage return, the four
   separators and the space *)
Definition blank (c : ascii) : Prop := In c (map ascii_of_nat [9; 10; 11; 12; 13; 28; 29; 30; 31; 32]%nat).
Definition blanks (s : string) : Prop := forall c, In c (list_ascii_of_string s) -> blank c.
Definition trimmed (s u : string) : Prop :=
  exists l r, s = String.append l (String.append u r) /\ blanks l /\ blanks r /\
    (forall c v, u = String c v -> ~ blank c) /\ (forall c v, u = String.append v (String c EmptyString) -> ~ blank c).
Definition same_text (s t : string) : Prop := exists u v, trimmed s u /\ trimmed t v /\ alike u v.
Definition fresh : axis := Axis "" "" "" "".
