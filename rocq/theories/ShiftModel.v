(* shiftdim, num_leading_ones and no_leading_ones of src/wafo/dctpack.py on arrays with any number of axes.  An array is its shape together
   with its elements in C order, the last axis running fastest.  The numpy calls used are modelled: transpose, reshape and roll. *)
From Verif Require Import Base.

Record ndarray (A : Type) := nd { shape : list nat; elements : list A }.
Arguments nd {A}. Arguments shape {A}. Arguments elements {A}.

Fixpoint product (s : list nat) : nat := match s with [] => 1 | n :: s' => n * product s' end.
(* all index tuples of a shape, in C order *)
Fixpoint indices (s : list nat) : list (list nat) :=
  match s with [] => [[]] | n :: s' => flat_map (fun i => map (cons i) (indices s')) (seq 0 n) end.
(* position of an index tuple in C order *)
Fixpoint position (s idx : list nat) : nat :=
  match s, idx with n :: s', i :: idx' => i * product s' + position s' idx' | _, _ => 0 end.
(* x[idx] *)
Definition item {A} (x : ndarray A) (idx : list nat) : option A := nth_error (elements x) (position (shape x) idx).

(* numpy.ndarray.transpose(axes): axis k of the result is axis axes[k] of x *)
Fixpoint where_is (p : nat) (axes : list nat) : nat := match axes with [] => 0 | a :: axes' => if a =? p then 0 else S (where_is p axes') end.
Definition transpose {A} (x : ndarray A) (axes : list nat) : ndarray A :=
  let s := map (fun p => nth p (shape x) 0) axes in
  let source idx := map (fun p => nth (where_is p axes) idx 0) (seq 0 (List.length (shape x))) in
  nd s (match elements x with [] => [] | d :: _ => map (fun idx => nth (position (shape x) (source idx)) (elements x) d) (indices s) end).
(* numpy.ndarray.reshape *)
Definition reshape {A} (x : ndarray A) (s : list nat) : res (ndarray A) :=
  if product s =? List.length (elements x) then Ok (nd s (elements x)) else Err ValueError.
(* np.roll(range(ndim), -n) for n >= 0 *)
Definition roll_range (ndim n : nat) : list nat := map (fun i => (i + n) mod ndim) (seq 0 ndim).

(* dctpack.py:305-312 num_leading_ones *)
Fixpoint leading_ones (x : list nat) (i first : nat) : nat :=
  match x with [] => first | xi :: x' => if xi =? 1 then leading_ones x' (S i) first else i end.
Definition num_leading_ones (x : list nat) : nat := leading_ones x 0 0.
(* dctpack.py:315-318 *)
Definition no_leading_ones (x : list nat) : list nat := skipn (num_leading_ones x) x.
(* dctpack.py:321-376 shiftdim; n = None or an integer *)
Definition shiftdim {A} (x : ndarray A) (n : option Z) : res (ndarray A) :=
  match n with
  | None => reshape x (no_leading_ones (shape x))
  | Some n => if (0 <=? n)%Z then Ok (transpose x (roll_range (List.length (shape x)) (Z.to_nat n)))
              else reshape x (repeat 1 (Z.to_nat (Z.abs n)) ++ shape x)
  end.
