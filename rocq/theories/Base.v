(* Shared vocabulary of all models: Python exceptions as values, and the few
   numpy primitives (slices with a step, argmin/argmax, diff, sorting) that the
   modelled functions use.  No property is proved here. *)
From Coq Require Export List Arith ZArith Bool Lia.
Export ListNotations.

(* An outcome of a Python call.  [MemoryError] is our name for an access outside
   an array in compiled code (numba in nopython mode / C), which Python would
   not report; the others are the Python exception classes. *)
Inductive exn := ValueError | IndexError | TypeError | KeyError | MemoryError
               | ZeroDivision | OutOfFuel | NotImplementedError | UnboundLocal | AttributeError.
Inductive res (A : Type) := Ok (a : A) | Err (e : exn).
Arguments Ok {A} a.
Arguments Err {A} e.

Definition bind {A B} (m : res A) (f : A -> res B) : res B :=
  match m with Ok a => f a | Err e => Err e end.
Notation "'let*' x := m 'in' f" := (bind m (fun x => f))
  (at level 200, x pattern, m at level 100, f at level 200).

(* numpy l[0::2] *)
Fixpoint every2 {A} (l : list A) : list A :=
  match l with
  | [] => []
  | a :: l' => a :: match l' with [] => [] | _ :: l'' => every2 l'' end
  end.

(* numpy l[s::2] *)
Definition step2 {A} (s : nat) (l : list A) : list A := every2 (skipn s l).

(* numpy l[a:b] for 0 <= a, 0 <= b *)
Definition slice {A} (a b : nat) (l : list A) : list A := skipn a (firstn b l).

(* checked indexing of interpreted numpy code: out of range -> IndexError *)
Definition geti {A} (l : list A) (i : nat) : res A :=
  match nth_error l i with Some a => Ok a | None => Err IndexError end.

(* unchecked indexing of compiled code: out of range -> MemoryError *)
Definition getm {A} (l : list A) (i : nat) : res A :=
  match nth_error l i with Some a => Ok a | None => Err MemoryError end.

(* np.diff of a 1-D array *)
Fixpoint diff (l : list Z) : list Z :=
  match l with
  | a :: ((b :: _) as t) => (b - a)%Z :: diff t
  | _ => []
  end.

(* np.argmin / np.argmax: position of the first smallest / largest entry;
   both raise ValueError on an empty array. *)
Fixpoint argbest_from (better : Z -> Z -> bool) (best : Z) (ibest i : nat) (l : list Z) : nat :=
  match l with
  | [] => ibest
  | a :: l' => if better a best then argbest_from better a i (S i) l'
               else argbest_from better best ibest (S i) l'
  end.
Definition argmin (l : list Z) : res nat :=
  match l with [] => Err ValueError | a :: l' => Ok (argbest_from Z.ltb a 0 1 l') end.
Definition argmax (l : list Z) : res nat :=
  match l with [] => Err ValueError | a :: l' => Ok (argbest_from Z.gtb a 0 1 l') end.

(* x[ind] with an integer index array *)
Fixpoint take_at {A} (l : list A) (ind : list nat) : res (list A) :=
  match ind with
  | [] => Ok []
  | i :: ind' => let* a := geti l i in let* r := take_at l ind' in Ok (a :: r)
  end.
