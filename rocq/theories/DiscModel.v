(* Model of the automatic discretisation of a function (src/wafo/misc.py:2193-2317) over exact reals.
   The function is applied to each point of an array; [tiny] is the smallest positive float. *)
From Coq Require Import Reals List ZArith String Bool.
From Verif Require Import Base FilterModel GridModel KdeModel ProcModel.
Import ListNotations.
Local Open Scope R_scope.

(* np.linspace *)
Definition linspaceZ (a b : R) (n : Z) : res (list R) := if (n <? 0)%Z then Err ValueError else Ok (linspace a b (Z.to_nat n)).
(* np.amax and the method max *)
Definition amax (l : list R) : res R := match l with [] => Err ValueError | _ => Ok (maxR l) end.
Definition gtb (a b : R) : bool := if Rlt_dec b a then true else false.
Definition leb (a b : R) : bool := if Rle_dec a b then true else false.
(* 2265, 2296-2297: the relative error at one point *)
Definition rel_err (tiny tol y0 y : R) : R := 0.5 * (Rabs (y0 - y) / (Rabs y0 + Rabs y + tiny + tol)).

(* 2256-2266: the while loop *)
Fixpoint linear_loop (fuel : nat) (f : R -> R) (tiny tol a b : R) (n : Z) (x y : list R) (err : R) (tries : nat) : res (list R * list R) :=
  match fuel with
  | O => Err OutOfFuel
  | S fuel' =>
    if ((tries <? 5)%nat && gtb err tol && (n <? 2 ^ 20)%Z)%bool then
      let n' := (2 * (n - 1) + 1)%Z in
      let* x' := linspaceZ a b n' in
      let y' := map f x' in
      let y00 := map (interp x y) x' in
      let* m := amax (map (fun p => Rabs (fst p - snd p) / (Rabs (fst p) + Rabs (snd p) + tiny + tol)) (combine y00 y')) in
      let err' := 0.5 * m in
      let tries' := (tries + (if leb (Rabs (err' - err)) (tol / 2) then 1 else 0))%nat in
      linear_loop fuel' f tiny tol a b n' x' y' err' tries'
    else Ok (x, y)
  end.
(* 2245-2267 _discretize_linear; n < 2^20 and doubles n - 1, so 64 passes are more than enough *)
Definition discretize_linear (f : R -> R) (tiny a b tol : R) (n : Z) : res (list R * list R) :=
  let* x := linspaceZ a b n in
  linear_loop 64 f tiny tol a b n x (map f x) 10000 0.

(* np.where(erri > tol) *)
Definition marked (tol : R) (e : list R) : list nat := filter (fun i => gtb (nth i e 0) tol) (seq 0 (List.length e)).
(* 2290-2291: the middles of the two intervals at a marked point; x[ix - 1] counts from the end for ix = 0 *)
Definition middles (x : list R) (i : nat) : res (list R) :=
  let* m := geti x i in
  let* l := getz x (Z.of_nat i - 1) in
  let* r := geti x (i + 1) in
  Ok [(m + l) / 2; (r + m) / 2].
(* 2305-2308: sorting by x; the points are distinct, so the order of equal points does not matter *)
Definition point := (R * (R * R))%type.
Fixpoint insert_point (p : point) (l : list point) : list point :=
  match l with [] => [p] | q :: l' => if Rle_dec (fst p) (fst q) then p :: l else q :: insert_point p l' end.
Fixpoint sort_points (l : list point) : list point := match l with [] => [] | p :: l' => insert_point p (sort_points l') end.

(* 2282-2314: at most [rounds] rounds *)
Fixpoint adaptive_loop (rounds : nat) (f : R -> R) (tiny tol : R) (x fx e : list R) (err : R) (tries : nat) : res (list R * list R) :=
  match rounds with
  | O => Ok (x, fx)
  | S rounds' =>
    if ((tries <? 5)%nat && gtb err tol)%bool then
      let ix := marked tol e in
      let* ys := all_ok (map (middles x) ix) in
      let y := concat ys in
      let fy := map f y in
      let fy0 := map (interp x fx) y in
      let ey := map (fun p => rel_err tiny tol (fst p) (snd p)) (combine fy0 fy) in
      let* err' := amax ey in
      let pts := sort_points (combine (x ++ y) (combine (fx ++ fy) (repeat 0 (List.length fx) ++ ey))) in
      let tries' := (tries + (if leb (Rabs (err' - err)) (tol / 2) then 1 else 0))%nat in
      adaptive_loop rounds' f tiny tol (map fst pts) (map (fun p => fst (snd p)) pts) (map (fun p => snd (snd p)) pts) err' tries'
    else Ok (x, fx)
  end.
(* 2270-2317 _discretize_adaptive *)
Definition discretize_adaptive (f : R -> R) (tiny a b tol : R) (n : Z) : res (list R * list R) :=
  let n := if (n mod 2 =? 0)%Z then (n + 1)%Z else n in
  let* x := linspaceZ a b n in
  let n2 := Z.to_nat ((n - 1) / 2) in
  let e := concat (repeat [0; 1] n2) in
  let* err := amax e in
  adaptive_loop 50 f tiny tol x (map f x) e err 0.

(* 2193-2242 discretize *)
Definition discretize (f : R -> R) (tiny a b tol : R) (n : Z) (method : string) : res (list R * list R) :=
  if prefix "a" method then discretize_adaptive f tiny a b tol n else discretize_linear f tiny a b tol n.
