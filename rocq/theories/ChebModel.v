(* Model of the Chebyshev functions of src/wafo/polynomial.py:913-1838 over exact real
   numbers.  Coefficients are stored highest order first, as in the code; one evaluation
   point at a time (the code is elementwise in x). *)
From Coq Require Import Reals.
From Verif Require Import Base PolyModel OrthoModel.
Local Open Scope R_scope.

(* ---- polynomial.py:1474-1505  _chebval (Clenshaw) -------------------------------------- *)
(* for ix in range(n - 1): b, b1 = x2 * b - b1 + ck[ix], b;
   return kind * x * b - b1 + ck[n - 1] *)
Fixpoint clenshaw (kind x b b1 : R) (ck : list R) : res R :=
  match ck with
  | [] => Err IndexError
  | [c] => Ok (kind * x * b - b1 + c)
  | c :: ck' => clenshaw kind x (2 * x * b - b1 + c) b ck'
  end.
Definition chebval0 (x : R) (ck : list R) (kind : R) : res R := clenshaw kind x 0 0 ck.

(* ---- polynomial.py:1508-1573  chebval -------------------------------------------------- *)
(* without fill *)
Definition chebval (x : R) (ck : list R) (a b kind : R) : res R :=
  chebval0 (map_from_interval x a b) ck kind.
(* with fill: np.where(cond, 0, fill) has the type of fill, so for an integer fill value the
   results are stored in an integer array; [store] is what the assignment does *)
Definition chebval_fill_as (store : R -> R) (x : R) (ck : list R) (a b kind fill : R) : res R :=
  let y := map_from_interval x a b in
  if Rle_dec (Rabs y) 1 then let* v := chebval0 y ck kind in Ok (store v) else Ok fill.
Definition chebval_fill := chebval_fill_as (fun v => v).
Definition chebval_fill_int (x : R) (ck : list R) (a b kind : R) (fill : Z) : res R :=
  chebval_fill_as trunc x ck a b kind (IZR fill).

(* ---- polynomial.py:1104-1160  chebpoly(n, x) ------------------------------------------- *)
Definition chebpoly_at (n : nat) (x kind : R) : res R := chebval0 x (1 :: repeat 0 n) kind.

(* ---- polynomial.py:967-1026  cheb2poly (a <> b) ---------------------------------------- *)
(* p[-nb::] = p[-nb::] - q  with nb = len(q); the shapes must match *)
Definition sub_tail (p q : list R) : res (list R) :=
  if (List.length q <=? List.length p)%nat then Ok (map2 Rminus p (pad_left (List.length p) q))
  else Err ValueError.
(* q[-1] = q[-1] - c *)
Definition sub_last (q : list R) (c : R) : list R := removelast q ++ [last q 0 - c].
Fixpoint cheb2poly_loop (y : list R) (b b1 ck : list R) : res (list R) :=
  match ck with
  | [] => Err IndexError
  | [c] => sub_tail (polymul y b) (sub_last b1 c)
  | c :: ck' =>
      let* bn := sub_tail (polymul (map (Rmult 2) y) b) (sub_last b1 c) in
      cheb2poly_loop y bn b ck'
  end.
Definition cheb2poly (ck : list R) (a b : R) : res (list R) :=
  let* p := cheb2poly_loop [2 / (b - a); - (a + b) / (b - a)] [0] [0] ck in Ok (polytrim p).

(* ---- polynomial.py:1029-1060 chebextr, 1063-1101 chebroot ------------------------------ *)
Definition chebextr (n : nat) : list R :=
  map (fun i => - cos (PI * INR i / INR n)) (seq 0 (n + 1)).
Definition chebroot (n : nat) (kind : Z) : res (list R) :=
  if ((kind =? 1) || (kind =? 2))%Z then
    Ok (map (fun i => - cos (PI * (INR i + 1/2 * IZR kind) / (INR n + IZR kind - 1))) (seq 0 n))
  else Err ValueError.

(* ---- scipy.fftpack.dct, type 2, unnormalised (library) --------------------------------- *)
Definition dct (f : list R) : list R :=
  let N := List.length f in
  map (fun k => 2 * vsum N (fun n => at_R f n * cos (PI * INR k * (2 * INR n + 1) / (2 * INR N)))) (seq 0 N).

(* ---- polynomial.py:1163-1251  chebfit, non-empty samples ------------------------------- *)
Definition halve_first (l : list R) : list R := match l with [] => [] | c :: l' => c / 2 :: l' end.
Definition chebfit (f : list R) : list R :=
  rev (halve_first (map (fun v => v / INR (List.length f)) (dct (rev f)))).
(* a callable is sampled at the mapped Chebyshev roots *)
Definition chebfit_fun (g : R -> R) (n : nat) (a b : R) : res (list R) :=
  let* x := chebroot n 1 in Ok (chebfit (map (fun t => g (map_to_interval t a b)) x)).

(* ---- polynomial.py:913-964  poly2cheb -------------------------------------------------- *)
(* f = poly1d(p) is evaluated with polyval (Horner) *)
Definition horner (p : list R) (x : R) : R := fold_left (fun v c => v * x + c) p 0.
Definition poly2cheb (p : list R) (a b : R) : res (list R) :=
  let f := poly1d p in chebfit_fun (horner f) (List.length f) a b.

(* ---- polynomial.py:1367-1442  chebinterpolate(func, deg), deg >= 0 --------------------- *)
(* numpy.polynomial.chebyshev.chebpts1 and chebvander (library) *)
Definition chebpts1 (n : nat) : list R :=
  map (fun j => sin (1/2 * PI / INR n * (- INR n + 1 + 2 * INR j))) (seq 0 n).
Fixpoint chebvander_row (x : R) (k : nat) : R * R :=      (* entries k and k-1 *)
  match k with
  | O => (1, x)
  | S O => (x, 1)
  | S k' => let (u, v) := chebvander_row x k' in (u * (2 * x) - v, u)
  end.
Definition chebinterpolate (func : R -> R) (deg : nat) : list R :=
  let order := S deg in
  let xc := chebpts1 order in
  let c := map (fun k => vsum order (fun j => fst (chebvander_row (at_R xc j) k) * func (at_R xc j))) (seq 0 order) in
  match c with
  | [] => []
  | c0 :: c' => c0 / INR order :: map (fun v => v / (1/2 * INR order)) c'
  end.

(* ---- polynomial.py:1576-1628  chebder (a <> b) ------------------------------------------ *)
Fixpoint cder_at (ck : list R) (n j : nat) : R :=
  match j with
  | O => 2 * INR n * at_R ck 0
  | S O => 2 * (INR n - 1) * at_R ck 1
  | S (S j' as j1) => cder_at ck n j' + 2 * (INR n - INR (S j1)) * at_R ck (S j1)
  end.
Definition chebder (ck : list R) (a b : R) : res (list R) :=
  match List.length ck with
  | O => Err ValueError                      (* np.zeros(-1) *)
  | S n => if (n <? 2)%nat then Err IndexError    (* cder[0], cder[1] *)
           else Ok (map (fun j => cder_at ck n j * 2 / (b - a)) (seq 0 n))
  end.

(* ---- polynomial.py:1631-1702  chebint, at least two coefficients ------------------------- *)
(* entry k of cint before the reversal: -(con * dif)[(k-1)/2] / k for 1 <= k < n-1, where
   dif = diff(ck[-1::-2]) for odd k and diff(ck[-2::-2]) for even k (only if n > 3) *)
Definition low (ck : list R) (k : nat) : R := at_R ck (List.length ck - 1 - k).   (* ck[-1-k] *)
Definition cint0 (ck : list R) (con : R) (k : nat) : R :=
  let n := List.length ck in
  if (1 <=? k)%nat && (k <? n - 1)%nat then
    if Nat.odd k then - (con * (low ck (k + 1) - low ck (k - 1))) / INR k
    else if (3 <? n)%nat then - (con * (low ck (k + 1) - low ck (k - 1))) / INR k
    else 0
  else 0.
Definition chebint (ck : list R) (a b : R) : res (list R) :=
  let n := List.length ck in
  if (n <? 2)%nat then Err ZeroDivision
  else
    let con := 1/4 * (b - a) in
    let c1 := map (fun j => cint0 ck con (n - 1 - j)) (seq 0 n) in       (* cint[::-1] *)
    let c2 := upd c1 (n - 1) (con * at_R ck (n - 2) / (INR n - 1)) in   (* cint[-1] = ... *)
    (* cint[-2::-1] are the entries n-2, n-3, ..., 0 *)
    let s := vsum (n - 1) (fun i => (-1) ^ i * at_R c2 (n - 2 - i)) in
    Ok (upd c2 0 (2 * s)).

(* ---- polynomial.py:1705-1838  Cheb1d ----------------------------------------------------- *)
(* trim_zeros(ck, 'b') *)
Definition trim_back (ck : list R) : list R := rev (drop_zeros (rev ck)).
Record cheb1d := Cheb1d { coeffs : list R; order : Z; lo : R; hi : R; knd : R }.
Definition cheb1d_init (ck : list R) (a b kind : R) : cheb1d :=               (* 1712-1724 *)
  let cki := trim_back ck in Cheb1d cki (Z.of_nat (List.length cki) - 1) a b kind.
Definition cheb1d_call (c : cheb1d) (x : R) : res R := chebval x (coeffs c) (lo c) (hi c) (knd c).
(* 1780-1781: every attribute assignment raises *)
Definition cheb1d_setcoeffs (c : cheb1d) (v : list R) : res cheb1d := Err ValueError.
Definition cheb1d_neg (c : cheb1d) : res cheb1d :=                            (* 1746-1749 *)
  cheb1d_setcoeffs c (map Ropp (coeffs c)).
Definition cheb1d_add (c other : cheb1d) : res cheb1d :=                      (* 1754-1758 *)
  cheb1d_setcoeffs c (polyadd (coeffs c) (coeffs other)).
Definition cheb1d_sub (c other : cheb1d) : res cheb1d :=                      (* 1763-1764 *)
  let* o := cheb1d_neg other in cheb1d_add c o.
Definition cheb1d_integ (c : cheb1d) : res cheb1d :=                          (* 1810-1823 *)
  let* v := chebint (coeffs c) (lo c) (hi c) in cheb1d_setcoeffs c v.
Definition cheb1d_deriv (c : cheb1d) : res cheb1d :=                          (* 1825-1838 *)
  let* v := chebder (coeffs c) (lo c) (hi c) in cheb1d_setcoeffs c v.
