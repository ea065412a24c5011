(* Model of src/wafo/misc.py:2397-2617 (trangood, tranproc) and src/wafo/transform/core.py:134-207
   (TrData) over exact real numbers.  Arrays are one-dimensional lists of reals; f is an array (a
   Python list has no attribute shape).  [eps] is _EPS, the distance from 1.0 to the next float. *)
From Coq Require Import Reals List ZArith.
From Verif Require Import Base PolyModel FilterModel GridModel WaveModel KdeModel.
Import ListNotations.
Local Open Scope R_scope.

(* np.floor, np.ceil *)
Definition floor (v : R) : Z := Int_part v.
Definition ceil (v : R) : Z := (- Int_part (- v))%Z.

(* misc.py:2436-2437  i = xo.argsort(); xo, fo = xo[i], fo[i].  Equal entries of x are refused right
   after, so the order argsort gives to them cannot be seen.  fo[i] raises IndexError when f is
   shorter than x and drops the surplus when it is longer *)
Fixpoint insert_row (p : R * R) (l : list (R * R)) : list (R * R) :=
  match l with [] => [p] | q :: l' => if Rle_dec (fst p) (fst q) then p :: l else q :: insert_row p l' end.
Fixpoint sort_rows (l : list (R * R)) : list (R * R) := match l with [] => [] | p :: l' => insert_row p (sort_rows l') end.

(* np.arange(a, b, d): ceil((b - a) / d) values; the length cannot be computed for d = 0 *)
Definition arange (a b d : R) : res (list R) :=
  if Req_EM_T d 0 then Err ValueError
  else Ok (map (fun i => a + INR i * d) (seq 0 (Z.to_nat (ceil ((b - a) / d))))).
(* np.arange(a, b) for integers *)
Definition zrange (a b : Z) : list R := map (fun i => IZR (a + Z.of_nat i)) (seq 0 (Z.to_nat (b - a))).

(* np.interp at one point: constant outside the range *)
Fixpoint interp (x f : list R) (t : R) : R :=
  match x, f with
  | x0 :: ((x1 :: _) as x'), f0 :: ((f1 :: _) as f') =>
      if Rle_dec t x0 then f0
      else if Rle_dec t x1 then f0 + (f1 - f0) / (x1 - x0) * (t - x0)
      else interp x' f' t
  | _, f0 :: _ => f0
  | _, [] => 0
  end.

Definition first (l : list R) : res R := geti l 0.
(* l[-k] *)
Definition from_end (l : list R) (k : nat) : res R := getz l (- Z.of_nat k).

(* misc.py:2397-2482 trangood; None for max_n is inf *)
Definition spacing_differs (eps : R) (xo : list R) : bool :=
  existsb (fun v => if Rlt_dec (10 * eps * (last xo 0 - hd 0 xo)) (Rabs v) then true else false) (diffR (diffR xo)).
Definition extend_below (xo fo : list R) (min_x : R) : list R * list R :=
  let dx := at_R xo 1 - at_R xo 0 in
  if Rlt_dec min_x (at_R xo 0) then
    let x1 := map (fun k => dx * k) (zrange (floor ((min_x - at_R xo 0) / dx)) (-2)) in
    let f2 := map (fun v => at_R fo 0 + v * (at_R fo 1 - at_R fo 0) / (at_R xo 1 - at_R xo 0)) x1 in
    (map (fun v => v + at_R xo 0) x1 ++ xo, f2 ++ fo)
  else (xo, fo).
(* 2476-2480; dx is the step found before the extension below.  f is the array of the caller, neither sorted nor interpolated *)
Definition extend_above (dx : R) (f xo fo : list R) (max_x : R) : res (list R * list R) :=
  let* xn := from_end xo 1 in
  if Rlt_dec xn max_x then
    let x1 := map (fun k => dx * k) (zrange 1 (ceil ((max_x - xn) / dx) + 1)) in
    let* f1 := from_end f 1 in
    let* f0 := from_end f 2 in
    let* xp := from_end xo 2 in
    Ok (xo ++ map (fun v => v + xn) x1, fo ++ map (fun v => f1 + v * (f1 - f0) / (xn - xp)) x1)
  else Ok (xo, fo).
Definition trangood (eps : R) (x f : list R) (min_n : option Z) (min_x max_x : option R) (max_n : option Z) : res (list R * list R) :=
  if (List.length f <? List.length x)%nat then Err IndexError
  else
    let rows := sort_rows (combine x f) in
    let xo := map fst rows in
    let fo := map snd rows in
    if existsb (fun d => if Rlt_dec 0 d then false else true) (diffR xo) then Err ValueError
    else
      let nf := List.length fo in
      let* xn := from_end xo 1 in
      let* x0 := first xo in
      let max_x := match max_x with Some v => v | None => xn end in
      let min_x := match min_x with Some v => v | None => x0 end in
      let min_n := Z.max (match min_n with Some k => k | None => Z.of_nat nf end) 2 in
      let max_n := match max_n with Some k => Some (Z.max k 2) | None => None end in
      let few := match max_n with Some k => Z.min min_n k | None => min_n end in
      let L := xn - x0 in
      let* p :=
        if ((Z.of_nat nf <? min_n) || (match max_n with Some k => k <? Z.of_nat nf | None => false end))%Z || spacing_differs eps xo then
          let dx := L / (IZR few - 1) in
          let dx := dx + 2 - 2 in
          let* xi := arange x0 (xn + dx / 2) dx in
          Ok (xi, map (interp xo fo) xi)
        else Ok (xo, fo) in
      let* _ := geti (fst p) 1 in
      let dx := at_R (fst p) 1 - at_R (fst p) 0 in
      let q := extend_below (fst p) (snd p) min_x in
      extend_above dx f (fst q) (snd q) max_x.

(* misc.py:2595-2602 linear interpolation by position; n = f.shape[0] is the length of the caller's array *)
Definition position (n : nat) (xo : list R) (t : R) : R := (INR n - 1) * (t - hd 0 xo) / (last xo 0 - hd 0 xo).
Definition by_position (n : nat) (fo : list R) (u : R) : res R :=
  let k := floor u in
  let fi := if (k =? Z.of_nat n - 1)%Z then (k - 1)%Z else k in
  let* a := getz fo fi in
  let* b := getz fo (fi + 1) in
  Ok (a + (b - a) * (u - IZR fi)).
(* 2587-2602; [nd] is the number of derivatives given *)
Definition nmax (nd : nat) (x : list R) : Z := ceil ((maxR x - minR x) * Rpower 10 (7 / INR (Nat.max nd 1))).
Definition values (f xo fo x0 : list R) : res (list R) := mapM (fun t => by_position (List.length f) fo (position (List.length f) xo t)) x0.
Definition good (eps : R) (nd : nat) (x f x0 : list R) : res (list R * list R) :=
  match x, x0 with
  | [], _ | _, [] => Err ValueError            (* ptp, min of nothing *)
  | _, _ => trangood eps x f None (Some (minR x0)) (Some (maxR x0)) (Some (nmax nd x))
  end.
Definition tranproc0 (eps : R) (x f x0 : list R) : res (list R) :=
  let* g := good eps 0 x f x0 in values f (fst g) (snd g) x0.
(* 2551-2561 _diff: values of the first, second, ... derivative at x0; midpoints and differences *)
Definition midpoints (x : list R) : list R := map2 (fun a b => (a + b) / 2) x (tl x).
Fixpoint derivatives (eps hn : R) (num : nat) (xo fo x0 : list R) : res (list (list R)) :=
  match num with
  | O => Ok []
  | S num' =>
      let xm := midpoints xo in
      let fm := map (fun d => d / hn) (diffR fo) in
      let* d := tranproc0 eps xm fm x0 in
      let* ds := derivatives eps hn num' xm fm x0 in
      Ok (d :: ds)
  end.
(* 2563-2585; fk is the k'th derivative of f at x0 and xk the k'th time derivative of x *)
Definition der_1 (f1 x1 : R) : R := f1 * x1.
Definition der_2 (f1 f2 x1 x2 : R) : R := f2 * x1 ^ 2 + f1 * x2.
Definition der_3 (f1 f2 f3 x1 x2 x3 : R) : R := f3 * x1 ^ 3 + f1 * x3 + 3 * f2 * x1 * x2.
Definition der_4 (f1 f2 f3 f4 x1 x2 x3 x4 : R) : R :=
  f4 * x1 ^ 4 + f1 * x4 + 6 * f3 * x1 ^ 2 * x2 + f2 * (3 * x2 ^ 2 + 4 * x1 * x2).
Definition entry (l : list (list R)) (k i : nat) : R := nth i (nth k l []) 0.
Definition der (fx xi : list (list R)) (k i : nat) : R :=
  let f j := entry fx j i in
  let x j := entry xi j i in
  match k with
  | O => der_1 (f 0%nat) (x 0%nat)
  | 1%nat => der_2 (f 0%nat) (f 1%nat) (x 0%nat) (x 1%nat)
  | 2%nat => der_3 (f 0%nat) (f 1%nat) (f 2%nat) (x 0%nat) (x 1%nat) (x 2%nat)
  | _ => der_4 (f 0%nat) (f 1%nat) (f 2%nat) (f 3%nat) (x 0%nat) (x 1%nat) (x 2%nat) (x 3%nat)
  end.
(* 2587-2617.  Without derivatives the result is the array y0, here the list with y0 as its only entry.  The derivatives must
   have the length of x0 here (numpy would also stretch arrays of one entry) *)
Definition tranproc (eps : R) (x f x0 : list R) (xi : list (list R)) : res (list (list R)) :=
  let nd := List.length xi in
  let* g := good eps nd x f x0 in
  let* y0 := values f (fst g) (snd g) x0 in
  let num := Nat.min nd 4 in
  if (num =? 0)%nat then Ok [y0]
  else
    let hn := at_R (fst g) 1 - at_R (fst g) 0 in
    let* fx := derivatives eps hn num (fst g) (snd g) x0 in
    if forallb (fun l => (List.length l =? List.length x0)%nat) (firstn num xi) then
      Ok (y0 :: map (fun k => map (der fx xi k) (seq 0 (List.length x0))) (seq 0 num))
    else Err ValueError.

(* ---- TrData ---- *)
(* transform/core.py:177-195; data are the Gaussian values and args the others *)
Record trdata := TrData { data : list R; args : list R; ymean : R; ysigma : R; mean : R; sigma : R }.
(* 203-207 *)
Definition gauss2dat (eps : R) (data args y : list R) (yi : list (list R)) : res (list (list R)) := tranproc eps data args y yi.
Definition dat2gauss (eps : R) (data args x : list R) (xi : list (list R)) : res (list (list R)) := tranproc eps args data x xi.
(* one number in, one number out *)
Definition gauss2dat1 (eps : R) (data args : list R) (y : R) : res R :=
  let* r := gauss2dat eps data args [y] [] in geti (hd [] r) 0.
Definition TrData_init (eps : R) (data args : list R) (ymean ysigma : R) (mean sigma : option R) : res trdata :=
  let* m := match mean with Some m => Ok m | None => gauss2dat1 eps data args ymean end in
  let* s := match sigma with
            | Some s => Ok s
            | None => let* p := gauss2dat1 eps data args (ymean + ysigma) in
                      let* q := gauss2dat1 eps data args (ymean - ysigma) in
                      Ok ((p - q) / 2)
            end in
  Ok (TrData data args ymean ysigma m s).
