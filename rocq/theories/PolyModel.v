(* Model of src/wafo/polynomial.py:43-910 (polyint, polyder, orthoval, ortho2poly, orthofit,
   polyreloc, polyrescl, polytrim, polyshift, polyishift, map_from_interval,
   map_to_interval) over exact real numbers.
   A polynomial is the list of its coefficients, highest degree first, as in the code.
   A vector of coefficients is modelled; the code also accepts matrices, whose columns are
   treated independently (polytrim, which does not, is modelled for matrices too).
   The poly1d wrapping and unwrapping (truepoly) is not modelled. *)
From Coq Require Import Reals.
From Verif Require Import Base.
Local Open Scope R_scope.

(* elementwise operation on two arrays of equal length *)
Fixpoint map2 {A B C} (f : A -> B -> C) (a : list A) (b : list B) : list C :=
  match a, b with
  | x :: a', y :: b' => f x y :: map2 f a' b'
  | _, _ => []
  end.

(* np.arange(n, 0, -1) as floats *)
Fixpoint countdown (n : nat) : list R :=
  match n with O => [] | S n' => INR (S n') :: countdown n' end.

(* ---- polynomial.py:156-232  polyder ------------------------------------------------- *)
(* y = arange(n, 0, -1) * p[:-1] with n = len(p) - 1 *)
Definition polyder1 (p : list R) : list R :=
  map2 Rmult (countdown (List.length p - 1)) (removelast p).
Fixpoint polyder_nat (p : list R) (m : nat) : list R :=
  match m with O => p | S m' => polyder_nat (polyder1 p) m' end.
Definition polyder (p : list R) (m : Z) : res (list R) :=
  if (m <? 0)%Z then Err ValueError else Ok (polyder_nat p (Z.to_nat m)).

(* ---- polynomial.py:43-153  polyint --------------------------------------------------- *)
(* y = concatenate((p / arange(len(p), 0, -1), [k0])) *)
Definition polyint1 (p : list R) (k0 : R) : list R :=
  map2 Rdiv p (countdown (List.length p)) ++ [k0].
(* the recursive calls: k = k[1:]; the broadcasting of a single constant in _init (line 141)
   can only happen in the outermost call because len(k) >= m afterwards *)
Fixpoint polyint_nat (p : list R) (m : nat) (k : list R) : res (list R) :=
  match m with
  | O => Ok p
  | S m' => match k with
            | [] => Err ValueError
            | k0 :: k' => polyint_nat (polyint1 p k0) m' k'
            end
  end.
Definition polyint (p : list R) (m : Z) (k : option (list R)) : res (list R) :=
  if (m <? 0)%Z then Err ValueError
  else
    let m := Z.to_nat m in
    let k := match k with None => repeat 0 m | Some k => k end in
    let k := match k with [k0] => if Nat.ltb 1 m then repeat k0 m else k | _ => k end in
    if Nat.ltb (List.length k) m then Err ValueError else polyint_nat p m k.

(* ---- polynomial.py:480-542  polyreloc ----------------------------------------------- *)
Definition upd {A} (l : list A) (i : nat) (v : A) : list A := firstn i l ++ v :: skipn (S i) l.
Definition at_R (l : list R) (i : nat) : R := nth i l 0.
(* for i in range(1, ii): r[i] = r[i] - x * r[i - 1].
   [store] is what an assignment into the array does to the value: nothing for an array of
   floats, truncation for an array of integers (np.atleast_1d keeps the integer type). *)
Definition reloc_pass (store : R -> R) (x : R) (ii : nat) (r : list R) : list R :=
  fold_left (fun r i => upd r i (store (at_R r i - x * at_R r (i - 1)))) (seq 1 (ii - 1)) r.
(* for ii in range(n, 1, -1) *)
Fixpoint reloc_loop (store : R -> R) (x : R) (ii : nat) (r : list R) : list R :=
  match ii with
  | O => r
  | S k => if Nat.ltb 1 ii then reloc_loop store x k (reloc_pass store x ii r) else r
  end.
Definition polyreloc_as (store : R -> R) (p : list R) (x y : R) : res (list R) :=
  match p with
  | [] => Err IndexError
  | _ => let r := reloc_loop store x (List.length p) p in
         Ok (upd r (List.length r - 1) (store (at_R r (List.length r - 1) + y)))
  end.
(* float coefficients *)
Definition polyreloc (p : list R) (x y : R) : res (list R) := polyreloc_as (fun v => v) p x y.
(* integer coefficients: numpy truncates towards zero on assignment *)
Definition trunc (v : R) : R :=
  if Rle_dec 0 v then IZR (Int_part v) else - IZR (Int_part (- v)).
Definition polyreloc_int (p : list Z) (x y : R) : res (list R) := polyreloc_as trunc (map IZR p) x y.

(* ---- polynomial.py:545-595  polyrescl (x <> 0) --------------------------------------- *)
(* xscale = float(x) ** arange(1 - n, 1);  q = y * r * xscale *)
Definition polyrescl (p : list R) (x y : R) : list R :=
  let n := List.length p in
  map2 (fun c e => y * c * powerRZ x e) p (map (fun i => (1 - Z.of_nat n + Z.of_nat i)%Z) (seq 0 n)).

(* ---- polynomial.py:598-637  polytrim ------------------------------------------------- *)
Definition nonzero (c : R) : bool := if Req_EM_T c 0 then false else true.
(* np.logical_or.accumulate *)
Fixpoint or_accumulate (acc : bool) (m : list bool) : list bool :=
  match m with [] => [] | b :: m' => (acc || b) :: or_accumulate (acc || b) m' end.
(* r[mask] *)
Fixpoint mask_select {A} (l : list A) (m : list bool) : list A :=
  match l, m with
  | a :: l', b :: m' => if b then a :: mask_select l' m' else mask_select l' m'
  | _, _ => []
  end.
Definition polytrim (p : list R) : list R :=
  mask_select p (or_accumulate false (map nonzero p)).
(* matrices: accumulate down every column, then any along the row *)
Fixpoint or_accumulate2 (acc : list bool) (m : list (list bool)) : list (list bool) :=
  match m with
  | [] => []
  | b :: m' => map2 orb acc b :: or_accumulate2 (map2 orb acc b) m'
  end.
Definition polytrim2 (w : nat) (p : list (list R)) : list (list R) :=
  mask_select p (map (existsb (fun b => b)) (or_accumulate2 (repeat false w) (map (map nonzero) p))).

(* ---- polynomial.py:857-900  polyishift, 814-854  polyshift (a <> b) ------------------- *)
Definition is_unit (a b : R) : bool :=
  if Req_EM_T a (-1) then (if Req_EM_T b 1 then true else false) else false.
Definition polyishift (px : list R) (a b : R) : res (list R) :=
  if is_unit a b then Ok px
  else
    let L := b - a in
    let xscale := 2 / L in
    let xloc := - (a + b) / L in
    polyreloc (polyrescl px xscale 1) xloc 0.
Definition polyshift (py : list R) (a b : R) : res (list R) :=
  if is_unit a b then Ok py
  else
    let L := b - a in
    polyishift py (- (2 + b + a) / L) ((2 - b - a) / L).

(* ---- polynomial.py:903-910 ----------------------------------------------------------- *)
Definition map_from_interval (x a b : R) : R := (x - (b + a) / 2) * (2 / (b - a)).
Definition map_to_interval (x a b : R) : R := (x * (b - a) + (b + a)) / 2.

(* ---- numpy.polyadd / polymul (library code used by ortho2poly and cheb2poly) ---------- *)
(* poly1d(c).coeffs: leading zeros trimmed, [0] if nothing is left *)
Fixpoint drop_zeros (p : list R) : list R :=
  match p with [] => [] | c :: p' => if nonzero c then p else drop_zeros p' end.
Definition poly1d (p : list R) : list R := match drop_zeros p with [] => [0] | q => q end.
Definition pad_left (n : nat) (p : list R) : list R := repeat 0 (n - List.length p) ++ p.
Definition polyadd (a b : list R) : list R :=
  map2 Rplus (pad_left (List.length b) a) (pad_left (List.length a) b).
(* np.convolve of non-empty arrays *)
Fixpoint convolve (a b : list R) : list R :=
  match a with
  | [] => repeat 0 (List.length b - 1)
  | c :: a' => map2 Rplus (map (Rmult c) b ++ repeat 0 (List.length a')) (0 :: convolve a' b)
  end.
Definition polymul (a b : list R) : list R := convolve (poly1d a) (poly1d b).

(* ---- polynomial.py:318-350  orthoval -------------------------------------------------- *)
(* p: the three rows of the table; row 1 and 2 hold the recurrence coefficients.
   xn[0] = 1, xn[1] = x - p[1,1], xn[i] = (x - p[1,i]) xn[i-1] - p[2,i] xn[i-2].
   A table with a single column may have only one row. *)
Record table := Table { row0 : list R; row1 : list R; row2 : list R }.
Fixpoint ortho_rows (x : R) (t : table) (i : nat) : R * R :=   (* xn[i], xn[i-1] *)
  match i with
  | O => (1, 0)
  | S O => (x - at_R (row1 t) 1, 1)
  | S i' => let (u, v) := ortho_rows x t i' in ((x - at_R (row1 t) i) * u - at_R (row2 t) i * v, u)
  end.
Fixpoint dot (a b : list R) : R :=
  match a, b with x :: a', y :: b' => x * y + dot a' b' | _, _ => 0 end.
Definition orthoval (t : table) (x : R) : res R :=
  match row0 t with
  | [] => Err IndexError
  | [c] => Ok c
  | _ => Ok (dot (row0 t) (map (fun i => fst (ortho_rows x t i)) (seq 0 (List.length (row0 t)))))
  end.

(* ---- polynomial.py:353-404  ortho2poly ------------------------------------------------ *)
(* the list x of the code, as the pair x[i], x[i-1] (before the scaling loop) *)
Fixpoint ortho_polys (t : table) (i : nat) : list R * list R :=
  match i with
  | O => ([1], [])
  | S O => ([1; - at_R (row1 t) 1], [1])
  | S i' => let (u, v) := ortho_polys t i' in
            (polyadd (polymul [1; - at_R (row1 t) i] u) (map (Rmult (- at_R (row2 t) i)) v), u)
  end.
Definition ortho2poly (t : table) : res (list R) :=
  match row0 t with
  | [] => Err IndexError
  | [c] => Ok [c]
  | c0 :: cs =>
      let n := List.length cs in
      let x := map (fun i => map (Rmult (at_R (row0 t) i)) (fst (ortho_polys t i))) (seq 0 (S n)) in
      match x with
      | [] => Err TypeError
      | x0 :: xs => Ok (fold_left polyadd xs x0)
      end
  end.
