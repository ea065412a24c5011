(* Specification for cycle pairs, level crossings, cycle matrices and periods. *)
From Coq Require Import String.
From Verif Require Import Base CrossSpec CyclesModel.
Local Open Scope list_scope.
Local Open Scope Z_scope.

(* consecutive points with a rise (fall) from the first to the second, in order *)
Fixpoint rises (l : list Z) : list (Z * Z) :=
  match l with
  | a :: ((b :: _) as t) => if a <? b then (a, b) :: rises t else rises t
  | _ => []
  end.
Fixpoint falls (l : list Z) : list (Z * Z) :=
  match l with
  | a :: ((b :: _) as t) => if b <? a then (a, b) :: falls t else falls t
  | _ => []
  end.

(* the cycle from m up to M is counted at level u *)
Inductive lc_def := Up | UpMax | UpMinMax | UpMin.
Definition counted (d : lc_def) (u : Z) (c : Z * Z) : bool :=
  let '(m, M) := c in
  match d with
  | Up => (m <? u) && (u <? M)
  | UpMax => (m <? u) && (u <=? M)
  | UpMinMax => (m <=? u) && (u <=? M)
  | UpMin => (m <=? u) && (u <? M)
  end.
Definition count (d : lc_def) (u : Z) (cp : list (Z * Z)) : Z :=
  Z.of_nat (List.length (filter (counted d u) cp)).
(* what the function does for the numbers 1..4 *)
Definition def_number (d : lc_def) : Z :=
  match d with Up => 1 | UpMax => 2 | UpMinMax => 3 | UpMin => 4 end.
(* what the documentation promises *)
Definition documented_name (d : lc_def) : string :=
  match d with Up => "u" | UpMax => "uM" | UpMinMax => "umM" | UpMin => "um" end%string.

(* a strictly increasing list of levels *)
Definition levels_increasing (l : list Z) : Prop :=
  forall i j, (i < j < List.length l)%nat -> nth i l 0 < nth j l 0.

(* sum of the entries of an n x n matrix *)
Definition sumZ (f : Z -> Z) (n : nat) : Z := fold_right (fun k s => f (Z.of_nat k) + s) 0 (seq 0 n).
Definition matrix_sum (n : nat) (F : Z -> Z -> Z) : Z := sumZ (fun i => sumZ (fun j => F i j) n) n.

(* 'u2d' etc.: which crossing a period starts and ends at *)
Inductive cross_kind := U | D.
Definition is_cross (k : cross_kind) (x : list Z) (v : Z) : nat -> Prop :=
  match k with U => UpCross x v | D => DownCross x v end.
Definition kind_char (k : cross_kind) : string := match k with U => "u" | D => "d" end%string.
Definition pdef_name (a b : cross_kind) : string := (kind_char a ++ "2" ++ kind_char b)%string.
(* j is the first crossing of kind b after i *)
Definition next_cross (b : cross_kind) (x : list Z) (v : Z) (i j : nat) : Prop :=
  (i < j)%nat /\ is_cross b x v j /\ forall k, (i < k < j)%nat -> ~ is_cross b x v k.
