(* The quantile levels of kdetools/kernels.py over exact real numbers.  An array is its shape and the list of its entries in the order of
   ravel.  [argsort] is numpy's argsort, a parameter because the order it gives to equal entries is not documented; [eps] is the distance
   from 1.0 to the next float. *)
From Coq Require Import Reals ZArith List Bool.
From Verif Require Import Base PolyModel FilterModel GridModel WaveModel KdeModel ProcModel KernelModel TkdeModel.
Import ListNotations.
Local Open Scope R_scope.

(* kernels.py:92-94 _dx: np.r_[0, dx] + np.r_[dx, 0] *)
Definition widths (x : list R) : list R := let dx := map (fun d => d * (1 / 2)) (diffR x) in map2 Rplus (0 :: dx) (dx ++ [0]).
(* the shape of np.meshgrid of arrays with these lengths; [xy] for indexing='xy' *)
Definition grid_shape (xy : bool) (n : list nat) : list nat := match xy, n with true, a :: b :: r => b :: a :: r | _, _ => n end.
Definition grid_points (xy : bool) (args : list (list R)) : list (list R) := if xy then meshgrid args else cartesian args.
Definition same_shape (a b : list nat) : bool := if list_eq_dec Nat.eq_dec a b then true else false.
(* kernels.py:96-107 _init; no arguments: every cell has the same size *)
Definition cells (shape : list nat) (pdf : list R) (xi : list (list R)) (xy : bool) : res (list R) :=
  match xi with
  | [] => Ok pdf
  | _ => if same_shape (grid_shape xy (map (@List.length R) xi)) shape then Ok (map2 Rmult pdf (map prodl (grid_points xy (map widths xi)))) else Err ValueError
  end.
(* np.cumsum *)
Fixpoint cumsum (s : R) (l : list R) : list R := match l with [] => [] | v :: l' => (s + v) :: cumsum (s + v) l' end.
(* kernels.py:129-132 *)
Definition normalize_cdf (cdf : list R) : list R := let n := INR (List.length cdf) in map (fun c => c / last cdf 0 * n / (n + 15 / 10 ^ 9)) cdf.
(* kernels.py:135 np.where(np.diff(np.r_[cdf, 1]) > 0) *)
Definition increments (cdf : list R) : list nat := filter (fun i => if Rlt_dec (at_R (cdf ++ [1]) i) (at_R (cdf ++ [1]) (S i)) then true else false) (seq 0 (List.length cdf)).
(* kernels.py:46-143 qlevels.  xi is a tuple of arrays.  If all cells are zero, cdf is nan and no index is left, so that tranproc raises
   ValueError; the warnings of _check_levels are dropped *)
Definition qlevels (eps : R) (argsort : list R -> list nat) (shape : list nat) (pdf p : list R) (xi : list (list R)) (xy : bool) : res (list R) :=
  if existsb (fun v => if Rlt_dec v 0 then true else false) pdf then Err ValueError
  else if existsb (fun v => if Rlt_dec v 0 then true else if Rlt_dec 100 v then true else false) p then Err ValueError
  else if existsb (Nat.eqb 0) shape then Ok []
  else
    let ind := rev (argsort pdf) in
    let sorted_pdf := map (at_R pdf) ind in
    let* pdf_dx := cells shape pdf xi xy in
    let cdf := cumsum 0 (map (at_R pdf_dx) ind) in
    if Req_EM_T (last cdf 0) 0 then Err ValueError
    else
      let cdf := normalize_cdf cdf in
      let keep := increments cdf in
      let* levels := tranproc eps (map (at_R cdf) keep) (map (at_R sorted_pdf) keep) (map (fun v => v / 100) p) [] in
      Ok (map (fun v => if Rlt_dec v 0 then 0 else v) (hd [] levels)).

(* np.percentile of one row that is not empty, by the value of interpolation *)
Inductive rule := Linear | Midpoint | Lower | Higher.
Definition percentile_by (r : rule) (q : R) (l : list R) : R :=
  let s := sortR l in
  let t := INR (List.length l - 1) * (q / 100) in
  let lo := at_R s (Z.to_nat (floor t)) in
  let hi := at_R s (Z.to_nat (ceil t)) in
  match r with Linear => percentile q l | Midpoint => (lo + hi) / 2 | Lower => lo | Higher => hi end.
(* kernels.py:146-196 qlevels2 for the rows of data; percentages outside [0, 100] are refused by np.percentile *)
Definition qlevels2 (data : list (list R)) (p : list R) (method : Z) : res (list (list R)) :=
  let* r := (if (method =? 1)%Z then Ok Linear else if (method =? 2)%Z then Ok Midpoint else if (method =? 3)%Z then Ok Lower else if (method =? 4)%Z then Ok Higher else Err ValueError) in
  if existsb (fun v => if Rlt_dec (100 - v) 0 then true else if Rlt_dec 100 (100 - v) then true else false) p then Err ValueError
  else Ok (map (fun v => map (percentile_by r (100 - v)) data) p).
