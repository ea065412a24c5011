(* Model of src/wafo/integrate_oscillating.py over exact numbers.  numdifftools' Limit(h)(t) is the
   value h(t) (integrands without singularities at the nodes and end points), and the derivative of
   the phase is the argument dg.  numpy.linalg.lstsq, numdifftools' dea3 and the level crossings of
   misc.findcross and ecross are parameters. *)
From Coq Require Import Reals List ZArith Bool.
From Coquelicot Require Import Complex.
From Verif Require Import Base PolyModel KdeModel ProcModel DftModel.
Import ListNotations.
Local Open Scope R_scope.

(* ---- 38-82: the bases, as basis(t, k) and basis.derivative(t, k, n=1) ---- *)
Definition basis := ((nat -> R -> R) * (nat -> R -> R))%type.
(* 47-51 _coefficients, with k + 1 numbers *)
Definition unit_ (k j : nat) : R := if (j =? k)%nat then 1 else 0.
(* numpy.polynomial.polynomial.polyval and polyder(c, 1), for n coefficients, lowest first *)
Fixpoint horner (n : nat) (c : nat -> R) (t : R) : R := match n with O => 0 | S n' => c 0%nat + horner n' (fun j => c (S j)) t * t end.
Definition poly_basis : basis :=
  (fun k t => t ^ k, fun k t => if (k =? 0)%nat then horner 1 (fun _ => 0) t else horner k (fun j => INR (S j) * unit_ k (S j)) t).
(* numpy.polynomial.chebyshev.chebval (Clenshaw) for n >= 1 coefficients *)
Fixpoint clenshaw_loop (i : nat) (c : nat -> R) (c0 c1 t : R) : R * R :=
  match i with O => (c0, c1) | S i' => clenshaw_loop i' c (c i' - c1) (c0 + c1 * (2 * t)) t end.
Definition cheb_eval (n : nat) (c : nat -> R) (t : R) : R :=
  match n with
  | O => 0
  | S O => c 0%nat + 0 * t
  | S (S m) => let '(c0, c1) := clenshaw_loop m c (c m) (c (S m)) t in c0 + c1 * t
  end.
(* numpy.polynomial.chebyshev.chebder(c, 1): the loop for j = n .. 3, then the last two coefficients *)
Definition update (c : nat -> R) (i : nat) (v : R) : nat -> R := fun j => if (j =? i)%nat then v else c j.
Fixpoint chebder_loop (j : nat) (c der : nat -> R) : (nat -> R) * (nat -> R) :=
  match j with
  | S (S (S i) as j1) => chebder_loop j1 (update c (S i) (c (S i) + INR j * c j / INR (S i))) (update der j1 (2 * INR j * c j))
  | _ => (c, der)
  end.
Definition cheb_der (n : nat) (c : nat -> R) : nat -> R :=       (* n + 1 coefficients *)
  let '(c, der) := chebder_loop n c (fun _ => 0) in
  let der := if (1 <? n)%nat then update der 1 (4 * c 2%nat) else der in
  update der 0 (c 1%nat).
Definition chebyshev_basis : basis :=
  (fun k t => cheb_eval (k + 1) (unit_ k) t, fun k t => if (k =? 0)%nat then cheb_eval 1 (fun _ => 0) t else cheb_eval k (cheb_der k (unit_ k)) t).

(* 85-91 richardson, for real values *)
Definition richardson (q : nat -> R) (k : nat) : R :=
  let c := (q (k - 1)%nat - q (k - 2)%nat) / (q k - q (k - 1)%nat) - 1 in
  let c := Rmax c (7 / 100) in
  q k + (q k - q (k - 1)%nat) / c.

(* ---- 94-137: weights; lstsq n A b is the least-squares solution of a system of n equations ---- *)
Definition lsolver := nat -> (nat -> nat -> C) -> (nat -> C) -> nat -> C.
Definition operator (B : basis) (omega : R) (dg : R -> R) (k : nat) (t : R) : C :=
  Cplus (RtoC (snd B k t)) (Cmult (0, omega) (RtoC (dg t * fst B k t))).
Definition evans_webster_weights (lstsq : lsolver) (B : basis) (omega : R) (g dg : R -> R) (x : list R) : list C :=
  let n := List.length x in
  let b_1 := cis (omega * g 1) in
  let a_1 := cis (omega * g (-1)) in
  let rhs := fun k => Cminus (Cmult (RtoC (fst B k 1)) b_1) (Cmult (RtoC (fst B k (-1))) a_1) in
  map (lstsq n (fun k i => operator B omega dg k (at_R x i)) rhs) (seq 0 n).
Fixpoint pairs (l : list R) : list (R * R) := match l with a :: b :: l' => (a, b) :: pairs l' | _ => [] end.
Definition osc_weights (lstsq : lsolver) (B : basis) (omega : R) (g dg : R -> R) (x a_b : list R) : list C :=
  flat_map (fun ab => let '(a, b) := ab in let scale := (b - a) / 2 in let offset := (a + b) / 2 in
    evans_webster_weights lstsq B omega (fun t => g (scale * t + offset)) (fun t => scale * dg (scale * t + offset)) x) (pairs a_b).

(* ---- 329-369: points ---- *)
Fixpoint doubled (fuel : nat) (m_1 delta : R) : res R :=
  if Rle_dec 1 (1 / 2 * m_1 / delta) then match fuel with O => Err OutOfFuel | S fuel' => doubled fuel' m_1 (2 * delta) end else Ok delta.
(* k < (m - 1) / 2 is 2 k < m - 1 and ceil((m - 1) / 2) is m div 2, for m >= 1; delta is doubled less than m times if delta >= 1 *)
Definition adaptive_levin_points (m : nat) (delta : R) : res (list R) :=
  let* delta := doubled m (INR m - 1) delta in
  Ok (map (fun k => if (2 * k <? m - 1)%nat then -1 + INR k / delta else if (k =? m / 2)%nat then 0 else 1 - (INR m - 1 - INR k) / delta) (seq 0 m)).
Definition open_levin_points (m : nat) (delta : R) : res (list R) :=
  let* x := adaptive_levin_points (m + 2) delta in Ok (removelast (tl x)).
Definition chebyshev_extrema (m : nat) : list R := map (fun k => cos (INR k * PI / (INR m - 1))) (seq 0 m).
Definition chebyshev_roots (m : nat) : list R := map (fun k => cos (INR (2 * k + 1) * (1 / 2) * PI / INR m)) (seq 0 m).

(* ---- 157-326: QuadOsc; real limits ---- *)
(* 165-206: the changes of variables *)
Definition change_to_0_1 (f : R -> C) (g dg : R -> R) (a : R) : (R -> C) * (R -> R) * (R -> R) :=
  (fun t => let den := 1 - t in Cmult (RtoC (/ den ^ 2)) (f (a + t / den)), fun t => g (a + t / (1 - t)), fun t => let den := 1 - t in dg (a + t / den) / den ^ 2).
Definition change_to_m1_0 (f : R -> C) (g dg : R -> R) (b : R) : (R -> C) * (R -> R) * (R -> R) :=
  (fun t => let den := 1 + t in Cmult (RtoC (/ den ^ 2)) (f (b + t / den)), fun t => g (b + t / (1 + t)), fun t => let den := 1 + t in dg (b + t / den) / den ^ 2).
Definition change_to_m1_1 (f : R -> C) (g dg : R -> R) : (R -> C) * (R -> R) * (R -> R) :=
  (fun t => let den := 1 - t ^ 2 in Cmult (RtoC ((1 + t ^ 2) / den ^ 2)) (f (t / den)), fun t => let den := 1 - t ^ 2 in g (t / den), fun t => let den := 1 - t ^ 2 in dg (t / den) * (1 + t ^ 2) / den ^ 2).
Inductive limit := Fin (r : R) | Minf | Pinf.
Definition above (a b : limit) : bool :=
  match a, b with Fin a, Fin b => if Rlt_dec b a then true else false | Pinf, Pinf => false | Pinf, _ => true | Minf, _ => false | Fin _, Minf => true | Fin _, Pinf => false end.
(* 208-229 _get_functions; equal infinite limits, for which nan is returned, are None *)
Definition get_functions (f : R -> C) (g dg : R -> R) (a b : limit) : option ((R -> C) * (R -> R) * (R -> R) * R * R * bool) :=
  let reverse := above a b in
  let '(a, b) := if reverse then (b, a) else (a, b) in
  match a, b with
  | Fin a, Fin b => Some (f, g, dg, a, b, reverse)
  | Fin a, Pinf => Some (change_to_0_1 f g dg a, 0, 1, reverse)
  | Minf, Fin b => Some (change_to_m1_0 f g dg b, -1, 0, reverse)
  | Minf, Pinf => Some (change_to_m1_1 f g dg, -1, 1, reverse)
  | _, _ => None
  end.
(* 242-255 _get_best_estimate; nanargmin is the first smallest one *)
Fixpoint smallest (l : list (C * R)) (best : C * R) : C * R :=
  match l with [] => best | e :: l' => smallest l' (if Rlt_dec (snd e) (snd best) then e else best) end.
Definition best_estimate (k : nat) (q0 q1 q2 : nat -> C) : C * R :=
  let e := fun q : nat -> C => (q k, Cmod (Cminus (q k) (q (k - 1)%nat))) in
  smallest ((if (3 <=? k)%nat then [e q1] else []) ++ (if (5 <=? k)%nat then [e q2] else [])) (e q0).
(* 257-270 _extrapolate *)
Definition set_ (q : nat -> C) (k : nat) (v : C) : nat -> C := fun j => if (j =? k)%nat then v else q j.
Definition extrapolate (dea3 : C -> C -> C -> C) (k : nat) (q0 q1 q2 : nat -> C) : (nat -> C) * (nat -> C) * (C * R) :=
  let q1 := if (2 <=? k)%nat then set_ q1 k (dea3 (q0 (k - 2)%nat) (q0 (k - 1)%nat) (q0 k)) else q1 in
  let q2 := if (4 <=? k)%nat then set_ q2 k (dea3 (q1 (k - 2)%nat) (q1 (k - 1)%nat) (q1 k)) else q2 in
  (q1, q2, best_estimate k q0 q1 q2).
(* 299-300, 312: hh * sum(wq * f(x)) *)
Definition weighted (hh : R) (w : list C) (f : R -> C) (x : list R) : C :=
  Cmult (RtoC hh) (fold_right Cplus (RtoC 0) (map (fun p => Cmult (fst p) (f (snd p))) (combine w x))).
(* 307-309 *)
Definition halves (a b : R) (x : list R) : list R := map (fun v => (v + a) / 2) x ++ map (fun v => (v + b) / 2) x.
(* 305-318 and what follows: the loop for k = 1 .. maxiter - 1, fuel = maxiter - k; last is (q_val, err) *)
Fixpoint bisections (fuel : nat) (lstsq : lsolver) (B : basis) (dea3 : C -> C -> C -> C) (abseps : R) (f : R -> C) (g dg : R -> R) (omega : R) (x_n : list R) (a b : R)
    (k : nat) (hh : R) (x a_b : list R) (q0 q1 q2 : nat -> C) (n : nat) (last : option (C * R)) : res (C * R * nat) :=
  match fuel with
  | O => match last with None => Err UnboundLocal | Some (q, err) => Ok (q, err, n) end
  | S fuel' =>
    let n := (n + List.length x_n * 2 ^ k)%nat in
    let hh := hh / 2 in
    let x := halves a b x in
    let a_b := halves a b a_b in
    let q0 := set_ q0 k (weighted hh (osc_weights lstsq B omega g dg x_n a_b) f x) in
    let '(q1, q2, (q, err)) := extrapolate dea3 k q0 q1 q2 in
    if Rle_dec err abseps then Ok (q, err, n)
    else bisections fuel' lstsq B dea3 abseps f g dg omega x_n a b (S k) hh x a_b q0 q1 q2 n (Some (q, err))
  end.
(* 272-326 _quad_osc: the value, the error estimate and, unless a == b, the number of function values; eps is finfo(q_val).eps *)
Definition quad_osc (lstsq : lsolver) (B : basis) (dea3 : C -> C -> C -> C) (eps precision : R) (maxiter s : nat) (endpoints : bool) (f : R -> C) (g dg : R -> R) (a b omega : R) : res (C * R * option nat) :=
  if Req_EM_T a b then Ok (RtoC (b - a), Rabs (b - a), None)
  else
    let abseps := Rpower 10 (- precision) in
    let x_n := if endpoints then chebyshev_extrema s else chebyshev_roots s in
    let hh := (b - a) / 2 in
    let x := map (fun v => (a + b) / 2 + hh * v) x_n in
    let zeros := fun _ : nat => RtoC 0 in
    let a_b := [a; b] in
    match maxiter with
    | O => Err IndexError
    | S fuel =>
      let q0 := set_ zeros 0 (weighted hh (osc_weights lstsq B omega g dg x_n a_b) f x) in
      let* r := bisections fuel lstsq B dea3 abseps f g dg omega x_n a b 1 hh x a_b q0 zeros zeros (List.length x_n) None in
      let '(q, err, n) := r in Ok (q, err + 2 * eps, Some n)
    end.
(* 231-240 __call__, for finite limits *)
Definition quad_call (lstsq : lsolver) (B : basis) (dea3 : C -> C -> C -> C) (eps precision : R) (maxiter s : nat) (endpoints : bool) (f : R -> C) (g dg : R -> R) (a b omega : R) : res (C * R * option nat) :=
  let reverse := if Rlt_dec b a then true else false in
  let '(a, b) := if reverse then (b, a) else (a, b) in
  let* r := quad_osc lstsq B dea3 eps precision maxiter s endpoints f g dg a b omega in
  let '(q, err, n) := r in Ok (if reverse then Copp q else q, err, n).

(* ---- 372-540: AdaptiveLevin (s = 1) and EvansWebster, for real integrands f ---- *)
(* 375-416 _a_levin for s = 1; basis.eval is the sum of the coefficients times the functions of the basis *)
Definition a_levin (lstsq : lsolver) (B : basis) (omega : R) (f g dg : R -> R) (x : list R) : C :=
  let n := List.length x in
  let c := lstsq n (fun j k => operator B omega dg k (at_R x j)) (fun j => RtoC (f (at_R x j))) in
  let v := fun t => csum n (fun k => Cmult (c k) (RtoC (fst B k t))) in
  Cminus (Cmult (v 1) (cis (omega * g 1))) (Cmult (v (-1)) (cis (omega * g (-1)))).
(* 529-533 EvansWebster._a_levin *)
Definition evans_webster (lstsq : lsolver) (B : basis) (omega : R) (f g dg : R -> R) (x : list R) : C :=
  weighted 1 (evans_webster_weights lstsq B omega g dg x) (fun t => RtoC (f t)) x.
(* 460-462, 535-536 _get_num_points *)
Definition num_points (evans : bool) (s : nat) (prec betam : R) : nat :=
  if (1 <? s)%nat then (if evans then 8 else 1)%nat else Z.to_nat (floor (prec / Rmax (ln (betam + 1) / ln 10) 1 + 1)).
(* 499-514: the loop over the numbers of points; q is None for the start value 1e300 *)
Definition distance (q : C) (old : option C) : R := match old with None => Cmod (Cminus q (RtoC (10 ^ 300))) | Some o => Cmod (Cminus q o) end.
Fixpoint refine (counts : list nat) (points : nat -> res (list R)) (rule : list R -> C) (abseps : R) (n : nat) (q : option C) (err : R) (evals : nat) : res (option C * R * nat) :=
  match counts with
  | [] => Ok (q, err, evals)
  | c :: counts' =>
    let* x := points c in
    let n' := List.length x in
    if (n <? n')%nat then
      let v := rule x in
      let err := distance v q in
      if Rle_dec err abseps then Ok (Some v, err, evals + n')%nat else refine counts' points rule abseps n' (Some v) err (evals + n')
    else refine counts' points rule abseps n' q err evals
  end.
(* 464-516 _QaL; evans chooses the class *)
Definition qal (evans : bool) (lstsq : lsolver) (B : basis) (prec : R) (endpoints : bool) (s : nat) (f g dg : R -> R) (a b omega : R) : res (option C * R * nat) :=
  let scale := (b - a) / 2 in
  let offset := (a + b) / 2 in
  let ff := fun t => scale * f (scale * t + offset) in
  let gg := fun t => g (scale * t + offset) in
  let dgg := fun t => scale * dg (scale * t + offset) in
  let delta := Rmin (Rabs (omega * dgg (-1))) (Rabs (omega * dgg 1)) in
  let alpha := Rmin (Rabs (omega * gg (-1))) (Rabs (omega * gg 1)) in
  let simple := ((if Rlt_dec delta 10 then true else false) || (if Rle_dec alpha 10 then true else false) || (1 <? s)%nat)%bool in
  let points := fun m => if simple then Ok (if endpoints then chebyshev_extrema m else chebyshev_roots m) else if endpoints then adaptive_levin_points m delta else open_levin_points m delta in
  let m := num_points evans s prec delta in
  let abseps := 10 * Rpower 10 (- prec) in
  let counts := map (fun i => (m * 2 ^ i + 1)%nat) (seq 1 4) in
  let rule := fun x => if evans then evans_webster lstsq B omega ff gg dgg x else a_levin lstsq B omega ff gg dgg x in
  refine counts points rule abseps 0 None 0 0.
(* 418-442 _get_integration_limits; crossings x y v are the points where the broken line through (x, y) crosses the level v *)
Fixpoint insert_ (v : R) (l : list R) : list R :=
  match l with [] => [v] | u :: l' => if Rlt_dec v u then v :: l else if Req_EM_T v u then l else u :: insert_ v l' end.
Definition unique (l : list R) : list R := fold_right insert_ [] l.
Definition integration_limits (crossings : list R -> list R -> R -> list R) (dg : R -> R) (a b omega : R) : list R :=
  let scale := (b - a) / 2 in
  let x := linspace a b 31 in
  let y := map (fun t => scale * omega * dg t) x in
  let at_ := crossings x y in
  let inner := filter (fun i => if Rlt_dec a i then if Rlt_dec i b then true else false else false) (unique (at_ 30 ++ at_ 1 ++ at_ 0 ++ at_ (-1) ++ at_ (-30))) in
  a :: inner ++ [b].
(* 444-458 __call__ *)
Fixpoint add_pieces (q : R -> R -> res (option C * R * nat)) (ab : list R) (val : C) (err : R) (n : nat) : res (C * R * nat) :=
  match ab with
  | a :: ((b :: _) as ab') =>
    let* r := q a b in
    let '(v, e, k) := r in
    add_pieces q ab' (Cplus val match v with Some v => v | None => RtoC (10 ^ 300) end) (err + e) (n + k)
  | _ => Ok (val, err, n)
  end.
Definition levin_call (evans : bool) (lstsq : lsolver) (B : basis) crossings (prec : R) (endpoints : bool) (s : nat) (f g dg : R -> R) (a b omega : R) : res (C * R * nat) :=
  add_pieces (fun ai bi => qal evans lstsq B prec endpoints s f g dg ai bi omega) (integration_limits crossings dg a b omega) (RtoC 0) 0 0.
