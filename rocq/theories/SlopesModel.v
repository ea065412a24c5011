(* Model of src/wafo/interpolate.py:678-1099 and 1102-1326 (slopes, stineman_interp, Pchip,
   CubicHermiteSpline, StinemanInterp) over exact real numbers, for one-dimensional y of the
   length of x and with scale = False.  Slopes are given point by point: "slope at i". *)
From Coq Require Import Reals.
From Verif Require Import Base PolyModel PPModel SplineModel.
Local Open Scope R_scope.

Definition npts (x : list R) : nat := List.length x.
(* np.sign *)
Definition sgn (a : R) : R := if Rlt_dec a 0 then -1 else if Rlt_dec 0 a then 1 else 0.
Definition req (a b : R) : bool := if Req_EM_T a b then true else false.

(* 678-691 _edge_case, one entry *)
Definition edge_case (h0 h1 m0 m1 : R) : R :=
  let d := ((2 * h0 + h1) * m0 - h0 * m1) / (h0 + h1) in
  if negb (req (sgn d) (sgn m0)) then 0
  else if negb (req (sgn m0) (sgn m1)) && rlt (3 * Rabs m0) (Rabs d) then 3 * m0
  else d.

(* 726-778 _pchip_slope *)
Definition pchip_inner (h0 h1 m0 m1 : R) : R :=        (* h0 = h_(k-1), h1 = h_k *)
  if negb (req (sgn m1) (sgn m0)) || req m1 0 || req m0 0 then 0
  else
    let w1 := 2 * h1 + h0 in
    let w2 := h1 + 2 * h0 in
    1 / ((w1 / m0 + w2 / m1) / (w1 + w2)).
Definition pchip_at (x y : list R) (i : nat) : R :=
  let n := npts x in
  if (n =? 2)%nat then secant x y 0
  else if (i =? 0)%nat then edge_case (gap x 0) (gap x 1) (secant x y 0) (secant x y 1)
  else if (i =? n - 1)%nat then edge_case (gap x (n - 2)) (gap x (n - 3)) (secant x y (n - 2)) (secant x y (n - 3))
  else pchip_inner (gap x (i - 1)) (gap x i) (secant x y (i - 1)) (secant x y i).

(* slopes whose end values are 2 * secant - neighbour; [inner i] is yp[i] for 0 < i < n-1.
   For two points yp[1] still is 0 when yp[0] is computed. *)
Definition reflected_ends (x y : list R) (inner : nat -> R) (i : nat) : R :=
  let n := npts x in
  let first := 2 * secant x y 0 - (if (n =? 2)%nat then 0 else inner 1%nat) in
  if (i =? 0)%nat then first
  else if (i =? n - 1)%nat then 2 * secant x y (n - 2) - (if (n =? 2)%nat then first else inner (n - 2)%nat)
  else inner i.

(* 781-786 _parabola_slope *)
Definition parabola_inner (x y : list R) (i : nat) : R :=
  (secant x y (i - 1) * gap x i + secant x y i * gap x (i - 1)) / (gap x i + gap x (i - 1)).
Definition parabola_at (x y : list R) : nat -> R := reflected_ends x y (parabola_inner x y).

(* 789-818 _stineman_slope *)
Definition stineman_inner (x y : list R) (i : nat) : R :=
  let h0 := gap x (i - 1) in let h1 := gap x i in
  let m0 := secant x y (i - 1) in let m1 := secant x y i in
  (h0 * m0 * h1 ^ 2 * (1 + m1 ^ 2) + h1 * m1 * h0 ^ 2 * (1 + m0 ^ 2))
  / (h0 * h1 ^ 2 * (1 + m1 ^ 2) + h1 * h0 ^ 2 * (1 + m0 ^ 2)).
Definition stineman_end (m d yp : R) : R :=             (* d = m - slope of the neighbour *)
  if Rle_dec 0 (sgn m * d) then yp else m + (Rabs m * d) / (Rabs m + Rabs d).
Definition stineman_at (x y : list R) (i : nat) : R :=
  let n := npts x in
  let yp := reflected_ends x y (stineman_inner x y) in
  if (i =? 0)%nat then stineman_end (secant x y 0) (secant x y 0 - yp 1%nat) (yp 0%nat)
  else if (i =? n - 1)%nat then stineman_end (secant x y (n - 2)) (secant x y (n - 2) - yp (n - 2)%nat) (yp (n - 1)%nat)
  else yp i.

(* 822-849 _steffen_slope (at least three points) *)
Definition steffen_inner (h0 h1 m0 m1 : R) : R :=
  (sgn m0 + sgn m1) * Rmin (Rmin (Rabs m0) (Rabs m1)) (1/2 * Rabs (m0 * h1 + m1 * h0) / (h1 + h0)).
Definition steffen_end (h0 h1 m0 m1 : R) : R :=
  let w := h0 / (h0 + h1) in
  let p := m0 * (1 + w) - m1 * w in
  (sgn p + sgn m0) * Rmin (Rabs m0) (1/2 * p).
Definition steffen_at (x y : list R) (i : nat) : R :=
  let n := npts x in
  if (i =? 0)%nat then steffen_end (gap x 0) (gap x 1) (secant x y 0) (secant x y 1)
  else if (i =? n - 1)%nat then steffen_end (gap x (n - 2)) (gap x (n - 3)) (secant x y (n - 2)) (secant x y (n - 3))
  else steffen_inner (gap x (i - 1)) (gap x i) (secant x y (i - 1)) (secant x y i).

(* 852-865 _fritsch_carlson_slope *)
Definition fritsch_at (x y : list R) (i : nat) : R :=
  let n := npts x in
  let first := 2 * secant x y 0 - pchip_at x y 1 in
  if (i =? 0)%nat then first
  else if (i =? n - 1)%nat then 2 * secant x y (n - 2) - (if (n =? 2)%nat then first else pchip_at x y (n - 2))
  else pchip_at x y i.

(* 868-875 _secant_slope, 878-889 _catmull_rom_slope, 892-894 _cardinal_slope *)
Definition secant_at (x y : list R) (i : nat) : R :=
  if (i =? 0)%nat then secant x y 0 else if (i =? npts x - 1)%nat then secant x y (npts x - 2)
  else (secant x y (i - 1) + secant x y i) / 2.
Definition catmull_at (x y : list R) (i : nat) : R :=
  if (i =? 0)%nat then secant x y 0 else if (i =? npts x - 1)%nat then secant x y (npts x - 2)
  else (at_R y (i + 1) - at_R y (i - 1)) / (at_R x (i + 1) - at_R x (i - 1)).
Definition cardinal_at (tension : R) (x y : list R) (i : nat) : R := (1 - tension) * catmull_at x y i.

(* 694-723 _akima_slope (at least three points; with two points the code reads entries of an
   uninitialised array).  ext k is m[k]: the secants with two more on each side *)
Definition akima_ext (x y : list R) (k : nat) : R :=
  let n := npts x in
  let s k := secant x y k in
  if (k =? 0)%nat then 2 * (2 * s 0%nat - s 1%nat) - s 0%nat
  else if (k =? 1)%nat then 2 * s 0%nat - s 1%nat
  else if (k =? n + 1)%nat then 2 * s (n - 2)%nat - s (n - 3)%nat
  else if (k =? n + 2)%nat then 2 * (2 * s (n - 2)%nat - s (n - 3)%nat) - s (n - 2)%nat
  else s (k - 2)%nat.
Definition akima_dm (x y : list R) (k : nat) : R := Rabs (akima_ext x y (k + 1) - akima_ext x y k).
Definition akima_f12 (x y : list R) (i : nat) : R := akima_dm x y (i + 2) + akima_dm x y i.
Definition akima_max (x y : list R) : R := fold_right (fun i v => Rmax (akima_f12 x y i) v) (akima_f12 x y 0) (seq 0 (npts x)).
Definition akima_at (x y : list R) (i : nat) : R :=
  if Rlt_dec (1 / 1000000000 * akima_max x y) (akima_f12 x y i) then
    (akima_dm x y (i + 2) * akima_ext x y (i + 1) + akima_dm x y i * akima_ext x y (i + 2)) / akima_f12 x y i
  else 1/2 * (akima_ext x y (i + 3) + akima_ext x y i).

(* 970-992 the correction for monotone = True *)
Definition zero_flat (x y : list R) (yp : list R) : list R :=
  map (fun i => if ((i <? npts x - 1)%nat && req (secant x y i) 0) || ((1 <=? i)%nat && req (secant x y (i - 1)) 0)
                then 0 else at_R yp i) (seq 0 (npts x)).
(* alpha, beta, dist of interval i; a flat interval gives 0/0 = nan, and nan > 9 is False *)
Definition circle_dist (x y yp : list R) (i : nat) : R :=
  (at_R yp i / secant x y i) ^ 2 + (at_R yp (S i) / secant x y i) ^ 2.
Definition to_fix (x y yp : list R) (i : nat) : bool := negb (req (secant x y i) 0) && rlt 9 (circle_dist x y yp i).
Definition fix_interval (x y yp0 : list R) (yp : list R) (i : nat) : list R :=
  if to_fix x y yp0 i then
    let tau := 3 / sqrt (circle_dist x y yp0 i) in
    let m := secant x y i in
    upd (upd yp i (tau * (at_R yp0 i / m) * m)) (S i) (tau * (at_R yp0 (S i) / m) * m)
  else yp.
Definition make_monotone (x y yp : list R) : list R :=
  let yp0 := zero_flat x y yp in
  fold_left (fix_interval x y yp0) (seq 0 (npts x - 1)) yp0.

(* 897-995 slopes; the method is looked up by its first three letters *)
Inductive method := Parabola | Secant | Cardinal (tension : R) | CatmullRom | Akima | PCHIP | Stineman | Steffen | Fritsch.
Definition slope_at (m : method) (x y : list R) : nat -> R :=
  match m with
  | Parabola => parabola_at x y | Secant => secant_at x y | Cardinal t => cardinal_at t x y
  | CatmullRom => catmull_at x y | Akima => akima_at x y | PCHIP => pchip_at x y
  | Stineman => stineman_at x y | Steffen => steffen_at x y | Fritsch => fritsch_at x y
  end.
Definition slopes (m : method) (monotone : bool) (x y : list R) : res (list R) :=
  if exists_below (fun i => rle (gap x i) 0) (npts x - 1) then Err ValueError
  else if (npts x <? 2)%nat then Err IndexError                      (* dydx[0] of an empty array *)
  else if (npts x =? 2)%nat && (match m with Steffen => true | _ => false end) then Err IndexError   (* dx[1] *)
  else
    let yp := map (slope_at m x y) (seq 0 (npts x)) in
    Ok (if monotone then make_monotone x y yp else yp).

(* BPoly.from_derivatives (library), used by 1321-1327 and 1215-1221, with
   values and slopes at both ends (library): Bernstein coefficients of each interval *)
Definition bernstein (c0 c1 c2 c3 t : R) : R :=
  c0 * (1 - t) ^ 3 + 3 * c1 * t * (1 - t) ^ 2 + 3 * c2 * t ^ 2 * (1 - t) + c3 * t ^ 3.
Definition hermite_piece (x y yp : list R) (i : nat) (t : R) : R :=
  let h := gap x i in
  bernstein (at_R y i) (at_R y i + h * at_R yp i / 3) (at_R y (S i) - h * at_R yp (S i) / 3) (at_R y (S i))
    ((t - at_R x i) / h).
(* BPoly.__call__ with extrapolation: the interval is the number of inner breaks <= t *)
Definition count_upto (bs : list R) (t : R) : nat := List.length (filter (fun b => rle b t) bs).
Definition hermite (x y yp : list R) (t : R) : R :=
  hermite_piece x y yp (count_upto (removelast (tl x)) t) t.

(* 998-1099 stineman_interp for given slopes, one point; np.searchsorted(x[1:-1], xi) *)
Definition stineman_interp (x y yp : list R) (t : R) : R :=
  let i := count_below (removelast (tl x)) t in
  let s := secant x y i in
  let yo := at_R y i + s * (t - at_R x i) in
  let dy1 := (at_R yp i - s) * (t - at_R x i) in
  let dy2 := (at_R yp (S i) - s) * (t - at_R x (S i)) in
  let dd := dy1 * dy2 in
  yo + dd * (if Rlt_dec dd 0 then (2 * t - at_R x i - at_R x (S i)) / ((dy1 - dy2) * (at_R x (S i) - at_R x i))
             else if Rlt_dec 0 dd then 1 / (dy1 + dy2) else 0).

(* 1321-1327 Pchip.__init__ and 1215-1221 CubicHermiteSpline.__init__ (the two differ in the default
   method only), as the function they build.  zip cuts to the shorter of y and yp;
   BPoly.from_derivatives (library) wants as many entries as x has *)
Definition cubic_hermite (m : method) (x y : list R) (given : option (list R)) : res (R -> R) :=
  let* yp := match given with Some yp => Ok yp | None => slopes m false x y end in
  if negb (Nat.min (List.length y) (List.length yp) =? npts x)%nat then Err ValueError
  else Ok (hermite x y yp).
Definition Pchip (x y : list R) : res (R -> R) := cubic_hermite PCHIP x y None.
Definition CubicHermiteSpline (x y : list R) : res (R -> R) := cubic_hermite CatmullRom x y None.
(* 1197-1205 StinemanInterp, scale = False, y of the length of x *)
Definition StinemanInterp (m : method) (monotone : bool) (x y : list R) (given : option (list R)) : res (R -> R) :=
  let* yp := match given with Some yp => Ok yp | None => slopes m monotone x y end in
  Ok (stineman_interp x y yp).
