(* Model of the geometry helpers of src/wafo/misc.py (rotation, polar coordinates, points on a line),
   of nextpow2 and of the moving average.  Exact real arithmetic. *)
From Coq Require Import Reals Lra.
From Verif Require Import Base.
Local Open Scope R_scope.

(* ---- rotation ----------------------------------------------------------------------------------- *)
(* misc.py:370-384 the nine entries, row by row *)
Definition rot_entries (h p r : R) : list R :=
  [cos h * cos p;
   cos h * sin p * sin r - sin h * cos r;
   cos h * sin p * cos r + sin h * sin r;
   sin h * cos p;
   sin h * sin p * sin r + cos h * cos r;
   sin h * sin p * cos r - cos h * sin r;
   - sin p;
   cos p * sin r;
   cos p * cos r].
Definition nonzero (x : R) : bool := if Req_EM_T x 0 then false else true.
(* misc.py:338-385 rotation_matrix, flattened; angles in degrees *)
Definition rotation_matrix (heading pitch roll : R) : list R :=
  if nonzero heading || nonzero pitch || nonzero roll then
    let deg2rad := PI / 180 in
    rot_entries (heading * deg2rad) (pitch * deg2rad) (roll * deg2rad)
  else [1; 0; 0; 0; 1; 0; 0; 0; 1].
(* misc.py:388-411 rotate *)
Definition rotate (x y z heading pitch roll : R) : R * R * R :=
  let q := rotation_matrix heading pitch roll in
  let e i := nth i q 0 in
  (x * e 0%nat + y * e 1%nat + z * e 2%nat,
   x * e 3%nat + y * e 4%nat + z * e 5%nat,
   x * e 6%nat + y * e 7%nat + z * e 8%nat).
(* misc.py:414-432 rotate_2d *)
Definition rotate_2d (x y angle_deg : R) : R * R :=
  let a := angle_deg * PI / 180 in
  (cos a * x - sin a * y, sin a * x + cos a * y).

(* ---- polar coordinates -------------------------------------------------------------------------- *)
(* np.arctan2(y, x) for finite arguments, without the sign of zero *)
Definition arctan2 (y x : R) : R :=
  if Rlt_dec 0 x then atan (y / x)
  else if Rlt_dec x 0 then (if Rle_dec 0 y then atan (y / x) + PI else atan (y / x) - PI)
  else if Rlt_dec 0 y then PI / 2 else if Rlt_dec y 0 then - (PI / 2) else 0.
(* misc.py:2317-2340 polar2cart without z *)
Definition polar2cart (theta rho : R) : R * R := (rho * cos theta, rho * sin theta).
(* misc.py:2346-2370 cart2polar without z *)
Definition cart2polar (x y : R) : R * R := (arctan2 y x, sqrt (x * x + y * y)).

(* ---- points on a line --------------------------------------------------------------------------- *)
(* misc.py:449-501 spaceline; a point is a list of coordinates *)
Fixpoint pmap2 (f : R -> R -> R) (a b : list R) : list R :=
  match a, b with x :: a', y :: b' => f x y :: pmap2 f a' b' | _, _ => [] end.
Definition spaceline (start stop : list R) (num : Z) : list (list R) :=
  if (1 <? num)%Z then
    let delta := pmap2 (fun s t => (t - s) / IZR (num - 1)) start stop in
    map (fun n => pmap2 (fun s d => s + INR n * d) start delta) (seq 0 (Z.to_nat num))
  else
    let delta := pmap2 (fun s t => (t - s) / 2) start stop in
    [pmap2 (fun s d => s + d) start delta].

(* ---- nextpow2 ----------------------------------------------------------------------------------- *)
Inductive np2_arg := Scalar (x : R) | Vector (l : list R).
(* misc.py:2170-2190 nextpow2; [frexp] is the library function (mantissa, exponent) *)
Definition nextpow2 (frexp : R -> R * Z) (a : np2_arg) : res Z :=
  let pick fn := if Req_EM_T (fst fn : R) (1 / 2) then (snd fn - 1)%Z else snd fn in
  match a with
  | Scalar x => Ok (pick (frexp (Rabs x)))
  | Vector [x] => Ok (pick (frexp (Rabs x)))
  | Vector [] => Err ValueError  (* the truth value of an empty comparison *)
  | Vector l => Ok (pick (frexp (INR (List.length l))))
  end.

(* ---- moving average ----------------------------------------------------------------------------- *)
Definition rsum (l : list R) : R := fold_right Rplus 0 l.
Definition mean (l : list R) : R := rsum l / INR (List.length l).
(* np.cumsum *)
Fixpoint cumsum_from (s : R) (l : list R) : list R :=
  match l with [] => [] | a :: t => (s + a) :: cumsum_from (s + a) t end.
(* misc.py:793-876 moving_average for a 1-D array; [store] is the conversion to the type of the input,
   which the result has (np.empty_like): the identity for floats, truncation for integers *)
Definition moving_average (store : R -> R) (x : list R) (L : Z) : res (list R) :=
  if (L <=? 0)%Z then Err ValueError
  else
    let n := List.length x in
    let l := Z.to_nat L in
    if (n <? 2 * l + 1)%nat then Ok (repeat (store (mean x)) n)
    else
      let mn := mean (firstn (2 * l + 1) x) in
      let ix := seq (l + 1) (n - l - (l + 1)) in
      let inner := map (fun c => store (c + mn))
                     (cumsum_from 0 (map (fun i => (nth (i + l) x 0 - nth (i - l) x 0) / (2 * IZR L)) ix)) in
      let y := repeat (store mn) (l + 1) ++ inner in
      Ok (y ++ repeat (nth (n - l - 1) y 0) l).
(* misc.py:879-936 detrendma *)
Definition detrendma (store : R -> R) (x : list R) (L : Z) : res (list R) :=
  let* t := moving_average store x L in Ok (pmap2 Rminus x t).
