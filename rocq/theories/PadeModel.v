(* Model of src/wafo/polynomial.py:1841-1898 (padefit, with scipy.interpolate.pade) and 1908-2056
   (padefitlsq) over exact real numbers.  Polynomials are lists, highest degree first.  Tracing and
   the warning of _check_size are left out. *)
From Coq Require Import Reals List ZArith Bool.
From Verif Require Import Base PolyModel TransModel ChebModel KdeModel ArSpec.
Import ListNotations.
Local Open Scope R_scope.

(* ---- scipy.interpolate.pade(an, m); an is lowest order first, [solve n A b] is numpy.linalg.solve
   (LinAlgError is ValueError) ---- *)
Definition system (an : list R) (n : nat) : nat -> nat -> R := fun r j =>
  if (j <=? n)%nat then (if (r =? j)%nat then 1 else 0)
  else let i := (j - n - 1)%nat in if (i <? r)%nat then - at_R an (r - 1 - i) else 0.
Definition pade (solve : nat -> (nat -> nat -> R) -> (nat -> R) -> res (nat -> R)) (an : list R) (m : Z) : res (list R * list R) :=
  let N := (Z.of_nat (List.length an) - 1)%Z in
  if ((m <? 0) || (N <? m))%Z%bool then Err ValueError
  else
    let n := Z.to_nat (N - m) in
    let* pq := solve (List.length an) (system an n) (at_R an) in
    let p := map pq (seq 0 (n + 1)) in
    let q := 1 :: map pq (seq (n + 1) (Z.to_nat m)) in
    Ok (rev p, rev q).
(* 1895-1898 padefit: len(c) of a poly1d is its order; m = None and m = 0 give the default *)
Definition padefit (solve : nat -> (nat -> nat -> R) -> (nat -> R) -> res (nat -> R)) (is_poly1d : bool) (c : list R) (m : option Z) : res (list R * list R) :=
  let len := (Z.of_nat (List.length c) - (if is_poly1d then 1 else 0))%Z in
  let default := ((len - 1) / 2)%Z in
  let m := match m with None | Some 0%Z => default | Some m => m end in
  pade solve (rev c) m.

(* ---- padefitlsq ---- *)
Definition sgn (x : R) : R := if Rlt_dec 0 x then 1 else if Rlt_dec x 0 then -1 else 0.
Definition largest (n : nat) (f : nat -> R) : R := maxR (map f (seq 0 n)).
(* 2038-2039, 2050-2051: the polynomials with the coefficients cof *)
Definition num_of (m : nat) (cof : nat -> R) : list R := rev (map cof (seq 0 (m + 1))).
Definition den_of (m k : nat) (cof : nat -> R) : list R := rev (map cof (seq (m + 1) k)) ++ [1].
(* 2021-2035: the design matrix *)
Definition matrix_of (m : nat) (x wt bb : nat -> R) : nat -> nat -> R := fun i j => if (j <=? m)%nat then wt i * x i ^ j else - bb i * x i ^ (j - m).
(* 2034-2035: cof = v' diag(1 / w) u' bb with the singular values that are not 0, that is the pseudo-inverse times bb *)
Definition solution (pinv : nat -> nat -> (nat -> nat -> R) -> nat -> nat -> R) (npt ncof : nat) (u : nat -> nat -> R) (bb : nat -> R) : nat -> R :=
  fun j => sum_to npt (fun i => pinv npt ncof u j i * bb i).
Definition has_zero (npt : nat) (den : list R) (x : nat -> R) : bool := existsb (fun i => if Req_EM_T (polyval den (x i)) 0 then true else false) (seq 0 npt).
(* 2019-2052: one pass; a denominator that is 0 at a point, where numpy goes on with inf or nan, is an error here *)
Definition best := (R * option (list R * list R))%type.            (* smallest_devmax, c1 and c2 *)
Definition pass pinv (m k npt : nat) (x fs : nat -> R) (st : (nat -> R) * (nat -> R) * R * best) : res ((nat -> R) * (nat -> R) * R * best) :=
  let '(wt, ee, mad, (small, c)) := st in
  let bb := fun i => wt i * (fs i + Rabs mad * sgn (ee i)) in
  let cof := solution pinv npt (m + k + 1) (matrix_of m x wt bb) bb in
  let num := num_of m cof in
  let den := den_of m k cof in
  if has_zero npt den x then Err ZeroDivision
  else
    let ee' := fun i => polyval num (x i) / polyval den (x i) - fs i in
    let wt' := fun i => Rabs (ee' i) in
    let devmax := largest npt wt' in
    let mad' := sum_to npt wt' / INR npt in
    Ok (wt', ee', mad', if Rle_dec devmax small then (devmax, Some (num, den)) else (small, c)).
Fixpoint passes (n : nat) pinv (m k npt : nat) (x fs : nat -> R) st :=
  match n with O => Ok st | S n' => let* st' := pass pinv m k npt x fs st in passes n' pinv m k npt x fs st' end.
(* 1989-1997: points and values; vectors with one number, which numpy would broadcast, are refused here like all others that do not have npt numbers *)
Inductive input := Values (f : list R) | Function (f : R -> R).
Definition points (npt : nat) (end_points : bool) : res (list R) := if end_points then Ok (chebextr (npt - 1)) else chebroot npt 1.
Definition padefitlsq pinv (fun_ : input) (m k : nat) (a b : R) (x : option (list R)) (end_points : bool) : res (list R * list R) :=
  let ncof := (m + k + 1)%nat in
  let npt := (8 * ncof)%nat in
  let* x := match x with Some x => Ok x | None => let* t := points npt end_points in Ok (map (fun t => map_to_interval t a b) t) end in
  let fs := match fun_ with Values f => f | Function f => map f x end in
  if (negb (List.length x =? npt)%nat || negb (List.length fs =? npt)%nat)%bool then Err ValueError
  else
    let* st := passes 5 pinv m k npt (at_R x) (at_R fs) (fun _ => 1, fun _ => 1, 0, (10 ^ 30, None)) in
    match snd (snd st) with Some c => Ok c | None => Err UnboundLocal end.
