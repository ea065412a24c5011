(* The cosine and sine transforms of arrays of src/wafo/dctpack.py over exact real numbers.  The transforms of one row are scipy's; they
   are modelled by the sums in the documentation (dctpack.py:29-91). *)
From Coq Require Import Reals ZArith List Bool.
From Verif Require Import Base PolyModel OrthoModel ShiftModel.
Import ListNotations.
Local Open Scope R_scope.

(* scipy pads with zeros or truncates to the length n *)
Definition fit (n : nat) (row : list R) : list R := firstn n row ++ repeat 0 (n - List.length row).
(* a linear transform of a row: y[k] = sum C n k j x[j]; C n is the matrix for the length n *)
Definition apply_matrix (C : nat -> nat -> nat -> R) (n : nat) (row : list R) : list R :=
  map (fun k => vsum n (fun j => C n k j * nth j (fit n row) 0)) (seq 0 n).
(* dctpack.py:55-71 type 2; [ortho] for norm='ortho' *)
Definition dct2 (ortho : bool) (n k j : nat) : R :=
  (if ortho then sqrt (1 / (if k =? 0 then 4 * INR n else 2 * INR n)) else 1) * (2 * cos (PI * INR k * (2 * INR j + 1) / (2 * INR n))).
(* dctpack.py:73-91 type 3.  The documentation gives the factor sqrt(1/N) for norm='ortho'; scipy uses sqrt(2/N) *)
Definition dct3 (ortho : bool) (n k j : nat) : R :=
  if ortho then if j =? 0 then 1 / sqrt (INR n) else sqrt (2 / INR n) * cos (PI * (INR k + 1 / 2) * INR j / INR n)
  else if j =? 0 then 1 else 2 * cos (PI * (INR k + 1 / 2) * INR j / INR n).
Definition dct3_documented (n k j : nat) : R := if j =? 0 then 1 / sqrt (INR n) else sqrt (1 / INR n) * cos (PI * (INR k + 1 / 2) * INR j / INR n).
(* dctpack.py:10-110 dct and 117-153 idct along one axis for the types 2 and 3; type 1 is left out *)
Inductive dct_type := Two | Three.
Definition dct (t : dct_type) (ortho : bool) : nat -> nat -> nat -> R := match t with Two => dct2 ortho | Three => dct3 ortho end.
Definition idct (t : dct_type) (ortho : bool) : nat -> nat -> nat -> R := match t with Two => dct3 ortho | Three => dct2 ortho end.

(* the transform of every row along the last axis; scipy refuses a length below 1 *)
Definition along_last (C : nat -> nat -> nat -> R) (n : nat) (x : ndarray R) : res (ndarray R) :=
  if n =? 0 then Err ValueError
  else
    let s := removelast (shape x) in
    let m := last (shape x) 0%nat in
    Ok (nd (s ++ [n]) (flat_map (fun p => apply_matrix C n (firstn m (skipn (p * m) (elements x)))) (seq 0 (product s)))).
(* np.take(s, axes) *)
Definition take1 (s : list nat) (a : Z) : res nat :=
  let d := Z.of_nat (List.length s) in
  if (a <? - d)%Z then Err IndexError else if (d <=? a)%Z then Err IndexError
  else Ok (nth (Z.to_nat (if (a <? 0)%Z then a + d else a)) s 0%nat).
Fixpoint take (s : list nat) (axes : list Z) : res (list nat) :=
  match axes with [] => Ok [] | a :: r => let* n := take1 s a in let* r := take s r in Ok (n :: r) end.
(* dctpack.py:160-167 *)
Definition get_shape (s : list nat) (new : option (list nat)) (axes : option (list Z)) : res (list nat) :=
  match new with Some n => Ok n | None => match axes with None => Ok s | Some a => take s a end end.
(* dctpack.py:170-176 *)
Definition get_axes (ndim : nat) (new : list nat) (axes : option (list Z)) : res (list Z) :=
  let a := match axes with Some a => a | None => map Z.of_nat (seq 0 ndim) end in
  if List.length a =? List.length new then Ok a else Err ValueError.
(* axes.index(dim), None if dim is not in axes *)
Fixpoint axis_index (dim : Z) (axes : list Z) : option nat :=
  match axes with [] => None | a :: r => if (a =? dim)%Z then Some 0%nat else option_map S (axis_index dim r) end.
(* dctpack.py:187-193 the loop; [count] axes remain *)
Fixpoint each_axis (C : nat -> nat -> nat -> R) (new : list nat) (axes : list Z) (count dim : nat) (y : ndarray R) (shape0 : list nat) : res (ndarray R * list nat) :=
  match count with
  | O => Ok (y, shape0)
  | S c =>
      let* y := shiftdim y (Some 1%Z) in
      match axis_index (Z.of_nat dim) axes with
      | None => each_axis C new axes c (S dim) y shape0
      | Some i => let n := nth i new 0%nat in let* y := along_last C n y in each_axis C new axes c (S dim) y (upd shape0 dim n)
      end
  end.
(* dctpack.py:179-195 _raw_dctn *)
Definition raw_dctn (C : nat -> nat -> nat -> R) (x : ndarray R) (new : option (list nat)) (axes : option (list Z)) : res (ndarray R) :=
  let* new := get_shape (shape x) new axes in
  let ndim := List.length (shape x) in
  let* axes := get_axes ndim new axes in
  let y := match shape x with [n] => nd [n; 1%nat] (elements x) | _ => x end in
  let* (y, shape0) := each_axis C new axes ndim 0 y (shape x) in
  reshape y shape0.
(* np.atleast_1d *)
Definition atleast_1d (x : ndarray R) : ndarray R := match shape x with [] => nd [1%nat] (elements x) | _ => x end.
(* dctpack.py:198-297 dctn, idctn; dstn and idstn are transformn with scipy's matrices of dst and idst *)
Definition transformn (C : nat -> nat -> nat -> R) (x : ndarray R) := raw_dctn C (atleast_1d x).
Definition dctn (t : dct_type) (ortho : bool) := transformn (dct t ortho).
Definition idctn (t : dct_type) (ortho : bool) := transformn (idct t ortho).
