(* Model of src/wafo/polynomial.py:1254-1364 (chebfit_dct) and 2059-2381 (chebvandernd, chebfitnd,
   chebvalnd, chebgridnd) over exact real numbers.  An array is its shape and its entries by index;
   the coordinates of the points are vectors (the code keeps the shape of the coordinates, which
   only renames the points). *)
From Coq Require Import Reals List ZArith.
From Verif Require Import Base PolyModel OrthoModel ChebModel.
Import ListNotations.
Local Open Scope R_scope.

Record tensor := Tensor { shape : list nat; get : list nat -> R }.

(* numpy.polynomial.chebyshev.chebval of one series, lowest order first *)
Definition npchebval (x : R) (c : list R) : R :=
  match rev c with
  | [] => 0                                    (* refused by the callers below *)
  | [a] => a + 0 * x
  | c1 :: c0 :: r =>
      let p := fold_left (fun p ci => (ci - snd p, fst p + snd p * (2 * x))) r (c0, c1) in
      fst p + snd p * x
  end.
(* the entries along the first axis *)
Definition fibre (n : nat) (g : nat -> R) : list R := map g (seq 0 n).

(* chebval(x, c): every point with every set of coefficients; an array without axes gets one *)
Definition chebval_tensor (x : list R) (c : tensor) : res tensor :=
  match shape c with
  | O :: _ => Err IndexError
  | [] => Ok (Tensor [List.length x] (fun idx => npchebval (at_R x (last idx O)) [get c []]))
  | n :: rest => Ok (Tensor (rest ++ [List.length x]) (fun idx => npchebval (at_R x (last idx O)) (fibre n (fun j => get c (j :: removelast idx)))))
  end.
(* chebval(x, c, tensor=False): the last axis of c are the points; if c has one axis only, its
   entries are taken as coefficients for all points *)
Definition chebval_points (x : list R) (c : tensor) : res tensor :=
  match shape c with
  | O :: _ => Err IndexError
  | [] => Ok (Tensor [List.length x] (fun idx => npchebval (at_R x (last idx O)) [get c []]))
  | [n] => Ok (Tensor [List.length x] (fun idx => npchebval (at_R x (last idx O)) (fibre n (fun j => get c [j]))))
  | n :: rest =>
      if (last rest O =? List.length x)%nat
      then Ok (Tensor rest (fun idx => npchebval (at_R x (last idx O)) (fibre n (fun j => get c (j :: idx)))))
      else Err ValueError
  end.
Fixpoint points_loop (xs : list (list R)) (c : tensor) : res tensor :=
  match xs with [] => Ok c | x :: xs' => let* d := chebval_points x c in points_loop xs' d end.
(* polynomial.py:2319-2327 chebvalnd; vectors of different lengths are refused *)
Definition chebvalnd (c : tensor) (xs : list (list R)) : res tensor :=
  match xs with
  | [] => Err IndexError
  | x :: xs' =>
      if forallb (fun y => (List.length y =? List.length x)%nat) xs'
      then let* d := chebval_tensor x c in points_loop xs' d
      else Err ValueError
  end.
(* polynomial.py:2378-2381 chebgridnd *)
Fixpoint chebgridnd (c : tensor) (xs : list (list R)) : res tensor :=
  match xs with [] => Ok c | x :: xs' => let* d := chebval_tensor x c in chebgridnd d xs' end.

(* polynomial.py:2104-2128 chebvandernd: one row for each point.  chebvander is numpy's; the product
   of the reshaped rows is taken from the left in the code *)
Definition chebvander (x : R) (d : nat) : list R := map (fun k => fst (chebvander_row x k)) (seq 0 (S d)).
Fixpoint outer (rows : list (list R)) : list R :=
  match rows with [] => [1] | r :: rows' => flat_map (fun t => map (Rmult t) (outer rows')) r end.
Definition vander_row (deg : list nat) (pt : list R) : list R := outer (map2 (fun d x => chebvander x d) deg pt).
Definition chebvandernd (deg : list Z) (xs : list (list R)) : res (list (list R)) :=
  if negb (forallb (fun d => (0 <=? d)%Z) deg) then Err ValueError
  else if negb (List.length deg =? List.length xs)%nat then Err ValueError
  else
    match xs with
    | [] => Err IndexError
    | x :: xs' =>
        if forallb (fun y => (List.length y =? List.length x)%nat) xs'
        then Ok (map (fun p => vander_row (map Z.to_nat deg) (map (fun y => at_R y p) xs)) (seq 0 (List.length x)))
        else Err ValueError
    end.

(* polynomial.py:2199-2262 chebfitnd.  An array is the number of its axes and its entries.  [lstsq]
   solves a least squares problem.  The tuple (lhs, scl, rhs) of _init is unpacked as
   (lhs, rhs, scl) in 2243, so below [z] is what the code divides by *)
Definition columns (rows : list (list R)) : nat := List.length (hd [] rows).
(* a matrix and a vector, combined as numpy broadcasts them *)
Definition broadcast (op : R -> R -> R) (rows : list (list R)) (v : list R) : res (list (list R)) :=
  if (List.length v =? columns rows)%nat then Ok (map (fun r => map2 op r v) rows)
  else if (List.length v =? 1)%nat then Ok (map (map (fun a => op a (at_R v 0))) rows)
  else if (columns rows =? 1)%nat then Ok (map (fun r => map (op (at_R r 0)) v) rows)
  else Err ValueError.
Definition norms (rows : list (list R)) : list R :=
  map (fun k => let s := sqrt (vsum (List.length rows) (fun i => at_R (nth i rows []) k ^ 2)) in if Req_EM_T s 0 then 1 else s) (seq 0 (columns rows)).
Definition vec_div (c v : list R) : res (list R) :=
  if (List.length v =? List.length c)%nat then Ok (map2 Rdiv c v)
  else if (List.length v =? 1)%nat then Ok (map (fun a => a / at_R v 0) c)
  else if (List.length c =? 1)%nat then Ok (map (Rdiv (at_R c 0)) v)
  else Err ValueError.
Definition chebfitnd (lstsq : list (list R) -> list R -> list R) (xs : list (nat * list R)) (f : nat * list R) (deg : list Z) (w : option (list R)) : res (list R) :=
  let ndim := List.length xs in
  if negb (forallb (fun x => (fst x =? ndim)%nat) xs) || negb (fst f =? ndim)%nat then Err TypeError
  else if existsb (fun x => (List.length (snd x) =? 0)%nat) xs then Err TypeError
  else
    let order := fold_left Z.mul (map (fun d => (d + 1)%Z) deg) 1%Z in
    let* v := chebvandernd deg (map snd xs) in
    let z := snd f in
    let* lz := match w with
               | None => Ok (v, z)
               | Some w =>
                   if negb (List.length v =? List.length w)%nat then Err TypeError
                   else let* l := broadcast Rmult v w in if (List.length z =? List.length w)%nat then Ok (l, map2 Rmult z w) else Err ValueError
               end in
    let lhs := fst lz in
    let scl := snd lz in
    let rhs := norms lhs in
    let* a := broadcast Rdiv lhs scl in
    if negb (List.length a =? List.length rhs)%nat then Err ValueError       (* LinAlgError *)
    else
      let* c := vec_div (lstsq a rhs) scl in
      if (Z.of_nat (List.length c) =? order)%Z then Ok c else Err ValueError.

(* polynomial.py:1340-1364 chebfit_dct of a function of any number of variables *)
(* np.meshgrid with its default indexing exchanges the first two axes *)
Definition swap2 {A} (l : list A) : list A := match l with a :: b :: r => b :: a :: r | _ => l end.
Definition grid_values (f : list R -> R) (xi : list (list R)) : tensor :=
  Tensor (swap2 (map (@List.length R) xi)) (fun idx => f (map2 at_R xi (swap2 idx))).
Definition scale_tensor (s : R) (c : tensor) : tensor := Tensor (shape c) (fun idx => get c idx / s).
(* ck = dct(ck[..., ::-1]); ck[..., 0] /= 2 *)
Definition dct_last (c : tensor) : tensor :=
  Tensor (shape c) (fun idx => at_R (halve_first (dct (rev (fibre (last (shape c) O) (fun p => get c (removelast idx ++ [p])))))) (last idx O)).
(* np.rollaxis(ck, axis=-1): the last axis becomes the first *)
Definition rollaxis (c : tensor) : tensor :=
  Tensor (last (shape c) O :: removelast (shape c)) (fun idx => get c (tl idx ++ [hd O idx])).
Fixpoint dct_loop (ndim : nat) (c : tensor) : tensor :=
  match ndim with
  | O => c
  | S O => dct_last c
  | S m => dct_loop m (rollaxis (dct_last c))
  end.
Definition base_points (n : nat) (d : R * R) : res (list R) :=
  let* x := chebroot n 1 in Ok (map (fun t => map_to_interval t (fst d) (snd d)) x).
Fixpoint all_points (nd : list (nat * (R * R))) : res (list (list R)) :=
  match nd with [] => Ok [] | p :: r => let* x := base_points (fst p) (snd p) in let* l := all_points r in Ok (x :: l) end.
Definition chebfit_dct (f : list R -> R) (n : list nat) (domain : option (list (R * R))) : res tensor :=
  let dom := match domain with Some d => d | None => repeat (-1, 1) (List.length n) end in
  let* xi := all_points (combine n dom) in
  let c := scale_tensor (INR (fold_left Nat.mul n 1%nat)) (grid_values f xi) in
  Ok (dct_loop (List.length n) c).
