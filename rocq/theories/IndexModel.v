(* Model of index2sub, sub2index and findoutliers of src/wafo/misc.py *)
From Verif Require Import Base.
Local Open Scope Z_scope.

Inductive order := OrderC | OrderF.
Definition prodZ (l : list Z) : Z := fold_right Z.mul 1 l.
(* first subscript varying fastest *)
Fixpoint digits (shape : list Z) (i : Z) : list Z :=
  match shape with [] => [] | d :: s => (i mod d) :: digits s (i / d) end.
Fixpoint undigits (shape subs : list Z) : res Z :=
  match shape, subs with
  | [], [] => Ok 0
  | d :: s, a :: t => if (0 <=? a) && (a <? d) then let* r := undigits s t in Ok (a + d * r) else Err ValueError
  | _, _ => Err ValueError
  end.
(* misc.py:581-614 index2sub: np.unravel_index *)
Definition index2sub (shape : list Z) (index : Z) (o : order) : res (list Z) :=
  if (0 <=? index) && (index <? prodZ shape) then
    Ok (match o with OrderC => rev (digits (rev shape) index) | OrderF => digits shape index end)
  else Err ValueError.
(* misc.py:617-656 sub2index: np.ravel_multi_index *)
Definition sub2index (shape subs : list Z) (o : order) : res Z :=
  match o with OrderC => undigits (rev shape) (rev subs) | OrderF => undigits shape subs end.

(* ---- findoutliers ------------------------------------------------------------------------------- *)
(* a sample is a number or NaN (None); every operation with NaN gives NaN, every comparison False *)
Definition osub (a b : option Z) : option Z := match a, b with Some x, Some y => Some (x - y) | _, _ => None end.
Fixpoint odiff (l : list (option Z)) : list (option Z) :=
  match l with a :: ((b :: _) as t) => osub b a :: odiff t | _ => [] end.
(* np.flatnonzero *)
Definition flatnonzero (l : list bool) : list nat := filter (fun i => nth i l false) (seq 0 (length l)).
Definition gt_c (c : Z) (a : option Z) : bool := match a with Some x => c <? x | None => false end.
Definition lt_c (c : Z) (a : option Z) : bool := match a with Some x => x <? c | None => false end.
Definition small_c (c : Z) (a : option Z) : bool := match a with Some x => Z.abs x <=? c | None => false end.
(* misc.py:1678-1693 _find_spurious_jumps *)
Definition find_spurious_jumps (dxn : list (option Z)) (dcrit : Z) : list nat :=
  map S (flatnonzero (map (gt_c dcrit) dxn)) ++ flatnonzero (map (lt_c (- dcrit)) dxn).
(* np.diff of a boolean array is an exclusive or *)
Fixpoint bdiff (l : list bool) : list bool := match l with a :: ((b :: _) as t) => xorb a b :: bdiff t | _ => [] end.
(* misc.py:1695-1714 _find_consecutive_equal_values *)
Definition find_consecutive_equal (dxn : list (option Z)) (zcrit : Z) : list nat :=
  let mask := map (small_c zcrit) dxn in
  let i_small := flatnonzero mask in
  if (0 <? length i_small)%nat then
    let i_step := map S (flatnonzero (bdiff mask)) in
    map Nat.pred i_step ++ map S i_small ++ i_step ++ map S i_step
  else i_small.
Definition isnan (a : option Z) : bool := match a with None => true | Some _ => false end.
(* np.unique of indices below n *)
Definition unique_below (n : nat) (l : list nat) : list nat := filter (fun i => existsb (Nat.eqb i) l) (seq 0 n).
(* misc.py:1607-1748 findoutliers with given dcrit and ddcrit; (inds, indg) *)
Definition findoutliers (x : list (option Z)) (zcrit dcrit ddcrit : Z) : res (list nat * list nat) :=
  if (2 <? length x)%nat then
    let i_missing := flatnonzero (map isnan x) in
    (* np.any(i_missing): is any of the indices different from zero *)
    let xn := if existsb (fun i => negb (i =? 0)%nat) i_missing
              then map (fun a => match a with None => Some 0 | Some v => Some v end) x else x in
    let dxn := odiff xn in
    let ddxn := odiff dxn in
    let ind := find_spurious_jumps dxn dcrit ++ find_spurious_jumps ddxn ddcrit ++ find_consecutive_equal dxn zcrit in
    if (1 <? length ind)%nat then
      let u := unique_below (length x) ind in
      Ok (u, filter (fun i => negb (existsb (Nat.eqb i) u)) (seq 0 (length x)))
    else Ok (ind, seq 0 (length x))
  else Err ValueError.
