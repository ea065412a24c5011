(* Model of the helpers for positions, shapes and labels in src/wafo/misc.py: args_flat (521-578), common_shape (1751-1790)
   and num2pistr (2789-2829).  A shape is a list of lengths, an array a shape with its elements in row-major order.  The limits
   of numpy (32 axes, 32 arguments) are left out. *)
From Coq Require Import List Arith ZArith String DecimalString DecimalZ Bool.
From Verif Require Import Base.
Import ListNotations.

(* numpy's rule for two axes, and for two shapes with the last axis first *)
Definition bc_dim (x y : nat) : res nat :=
  if (x =? y)%nat then Ok x else if (x =? 1)%nat then Ok y else if (y =? 1)%nat then Ok x else Err ValueError.
Fixpoint bc_rev (a b : list nat) : res (list nat) :=
  match a, b with
  | [], _ => Ok b
  | _, [] => Ok a
  | x :: a', y :: b' => let* d := bc_dim x y in let* r := bc_rev a' b' in Ok (d :: r)
  end.
Definition bc2 (a b : list nat) : res (list nat) := let* r := bc_rev (rev a) (rev b) in Ok (rev r).
(* np.broadcast(x0, *args).shape *)
Fixpoint bc_all (acc : list nat) (shapes : list (list nat)) : res (list nat) :=
  match shapes with [] => Ok acc | s :: l => let* a := bc2 acc s in bc_all a l end.
(* misc.py:1788-1790; the scalar 1 has no axes *)
Definition common_shape (shapes : list (list nat)) (shape : option (list nat)) : res (list nat) :=
  bc_all (match shape with None => [] | Some s => s end) shapes.

Section Arrays.
Context {A : Type}.
Record array := Arr { shape_of : list nat; data_of : list A }.
Definition size (s : list nat) : nat := fold_right Nat.mul 1%nat s.
(* the elements of np.broadcast_to(d, t).ravel() for an array with as many axes as t *)
Fixpoint expand (s t : list nat) (d : list A) : list A :=
  match s, t with
  | n :: s', m :: t' => flat_map (fun i => expand s' t' (firstn (size s') (skipn ((if (n =? 1)%nat then 0 else i) * size s') d))) (seq 0 m)
  | _, _ => d
  end.
(* missing axes in front have length 1 *)
Definition ravel_to (t : list nat) (a : array) : list A :=
  expand (repeat 1%nat (List.length t - List.length (shape_of a)) ++ shape_of a) t (data_of a).
Fixpoint zip3 (x y z : list A) : list (A * A * A) :=
  match x, y, z with a :: x', b :: y', c :: z' => (a, b, c) :: zip3 x' y' z' | _, _, _ => [] end.
Fixpoint rows3 (d : list A) : list (A * A * A) :=
  match d with a :: b :: c :: d' => (a, b, c) :: rows3 d' | _ => [] end.
(* np.atleast_2d *)
Definition atleast_2d (s : list nat) : list nat := match s with [] => [1; 1]%nat | [n] => [1%nat; n] | _ => s end.
(* misc.py:568-578; the rows of pos, and the common shape *)
Definition args_flat (args : list array) : res (list (A * A * A) * option (list nat)) :=
  match args with
  | [p] => match atleast_2d (shape_of p) with
           | [_; n] => if (n =? 3)%nat then Ok (rows3 (data_of p), None) else Err ValueError
           | _ => Err ValueError
           end
  | [x; y; z] => let* t := bc_all (shape_of x) [shape_of y; shape_of z] in
                 Ok (zip3 (ravel_to t x) (ravel_to t y) (ravel_to t z), Some t)
  | _ => Err ValueError
  end.
End Arrays.
Arguments array : clear implicits.

(* misc.py:2816-2829 num2pistr; num / den is the fraction that limit_denominator returns for x / pi, in lowest terms, and other is
   what the format with n digits gives *)
Local Open Scope Z_scope.
Local Open Scope string_scope.
Definition decimal (z : Z) : string := NilZero.string_of_int (Z.to_int z).
Definition denominator_text (den : Z) : string := if (Z.abs den =? 1)%Z then "" else "/" ++ decimal den.
Definition numerator_text (num : Z) : string := if (Z.abs num =? 1)%Z then (if (num =? -1)%Z then "-" else "") else decimal num.
Definition num2pistr (num den : Z) (other : string) (numerator_max denominator_max : Z) : string :=
  if ((den <? denominator_max) && (num <? numerator_max) && negb (num =? 0))%Z
  then numerator_text num ++ "\pi" ++ denominator_text den
  else other.
