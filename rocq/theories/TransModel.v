(* Model of src/wafo/transform/models.py (and TrCommon of src/wafo/transform/core.py) over exact real numbers.  An entry that would be
   inf or nan is None.  Arrays are lists (shapes are restored by the code and not modelled). *)
From Coq Require Import Reals.
From Verif Require Import Base PolyModel.
Local Open Scope R_scope.

(* transform/core.py:38-50  TrCommon.__init__: sigma defaults to sqrt(var) *)
Record stats := Stats { mean : R; sigma : R; skew : R; kurt : R; ymean : R; ysigma : R }.
Definition common_init (mean var : R) (sigma : option R) (skew kurt ymean ysigma : R) : stats :=
  Stats mean (match sigma with None => sqrt var | Some s => s end) skew kurt ymean ysigma.

(* numpy.sign *)
Definition sign (x : R) : R := if Rlt_dec x 0 then -1 else if Rlt_dec 0 x then 1 else 0.

(* ---- TrLinear ------------------------------------------------------------------------------ *)
(* one array, or the list [y] + [derivatives] *)
Inductive out := Plain (y : list R) | Many (ys : list (list R)).
(* transform/models.py:387-392 *)
Definition linear_transform (ymean ysigma xmean xsigma : R) (x : list R) (xi : list (list R)) : out :=
  let sratio := ysigma / xsigma in
  let y := map (fun v => (v - xmean) * sratio + ymean) x in
  match xi with [] => Plain y | _ => Many (y :: map (map (fun v => v * sratio)) xi) end.
(* transform/models.py:394-396 *)
Definition linear_dat2gauss (s : stats) (x : list R) (xi : list (list R)) : out :=
  linear_transform (ymean s) (ysigma s) (mean s) (sigma s) x xi.
(* transform/models.py:398-400 *)
Definition linear_gauss2dat (s : stats) (y : list R) (yi : list (list R)) : out :=
  linear_transform (mean s) (sigma s) (ymean s) (ysigma s) y yi.

(* numpy trapz(y, x) *)
Fixpoint trapz (y x : list R) : R :=
  match y, x with
  | y0 :: ((y1 :: _) as y'), x0 :: ((x1 :: _) as x') => (x1 - x0) * (y0 + y1) / 2 + trapz y' x'
  | _, _ => 0
  end.
(* transform/core.py:55-83  dist2gauss for a given x and a transformation g; with x = None the code takes x = sigma * xn + mean *)
Definition dist2gauss (s : stats) (g : list R -> list R) (x : list R) : R :=
  let xn := map (fun v => (v - mean s) / sigma s) x in
  let yn := map (fun v => (v - ymean s) / ysigma s) (g x) in
  trapz (map2 (fun a b => (a - b) ^ 2) xn yn) xn.

(* ---- TrOchi -------------------------------------------------------------------------------- *)
Record phat := Phat { p_sigma : R; p_mean : R; gam_a : R; gam_b : R; sigma2 : R; mean2 : R }.
(* transform/models.py:488-490 *)
Definition g2 (skew x : R) : R := - sqrt (Rabs (x - 1) * 2) * (3 * x - 4 * Rabs (x - 1)) + Rabs skew.
(* transform/models.py:468-509  _par_from_stats.  scipy's brentq is a parameter; it raises ValueError when the signs at the ends are equal *)
Definition par_from_stats (brentq : (R -> R) -> R -> R -> R) (s : stats) : res phat :=
  if Rlt_dec 2.82842712474619 (Rabs (skew s)) then Err ValueError
  else if Req_EM_T (skew s) 0 then Ok (Phat (sigma s) (mean s) 0 0 1 0)
  else if Rlt_dec 0 (g2 (skew s) 1 * g2 (skew s) 2) then Err ValueError
  else
    let sig22 := brentq (g2 (skew s)) 1 2 in
    let a := sign (skew s) * sqrt (Rabs (sig22 - 1) / 2) / sig22 in
    let my2 := (- 1 - sqrt (1 - 4 * a ^ 2 * sig22)) / a in
    Ok (Phat (sigma s) (mean s) (1.28 * a) (3 * a) (sqrt sig22) (a * sig22 / my2)).
(* the object: its attributes and the cached parameters *)
Record ochi := Ochi { base : stats; cache : option phat }.
(* transform/models.py:462-466  __init__ *)
Definition ochi_init (brentq : (R -> R) -> R -> R -> R) (s : stats) : res ochi :=
  let* p := par_from_stats brentq s in Ok (Ochi s (Some p)).
(* transform/models.py:511-524  _get_par *)
Definition get_par (brentq : (R -> R) -> R -> R -> R) (o : ochi) : res phat :=
  match cache o with
  | Some p => if Req_EM_T (sigma (base o)) (p_sigma p) then if Req_EM_T (mean (base o)) (p_mean p) then Ok p else par_from_stats brentq (base o)
              else par_from_stats brentq (base o)
  | None => par_from_stats brentq (base o)
  end.
(* numpy log1p (finite for arguments above -1) and expm1 *)
Definition log1p (v : R) : option R := if Rlt_dec (-1) v then Some (ln (1 + v)) else None.
Definition expm1 (v : R) : option R := Some (exp v - 1).
Definition neg_div (v : option R) (g : R) : option R := match v with Some w => Some (- w / g) | None => None end.
(* transform/models.py:526-529  _transform; idx are the positions where x2 satisfies the test *)
Definition ochi_transform (f : R -> option R) (x1 : list (option R)) (x2 : list R) (gab : R) (test : R -> bool) : list (option R) :=
  if Req_EM_T gab 0 then x1
  else map2 (fun a b => if test b then neg_div (f (- gab * b)) gab else a) x1 x2.
Definition nonneg (v : R) : bool := if Rle_dec 0 v then true else false.
Definition neg (v : R) : bool := if Rlt_dec v 0 then true else false.
Definition on_finite (f : R -> R) (v : option R) : option R := match v with Some w => Some (f w) | None => None end.
(* transform/models.py:531-539  _backward *)
Definition ochi_backward (p : phat) (yn : list R) : list (option R) :=
  let y2 := map (fun v => sigma2 p * v + mean2 p) yn in
  let xn := map Some y2 in
  let xn := ochi_transform log1p xn y2 (gam_a p) nonneg in
  ochi_transform log1p xn y2 (gam_b p) neg.
(* transform/models.py:541-548  _forward *)
Definition ochi_forward (p : phat) (xn : list R) : list (option R) :=
  let y2 := map Some xn in
  let y2 := ochi_transform expm1 y2 xn (gam_a p) nonneg in
  let y2 := ochi_transform expm1 y2 xn (gam_b p) neg in
  map (on_finite (fun v => (v - mean2 p) / sigma2 p)) y2.
(* transform/models.py:560-567  _transformgauss *)
Definition transformgauss (trfun : list R -> list (option R)) (mean sigma ymean ysigma : R) (y : list R) (yi : list (list R)) : res (list (option R)) :=
  match yi with
  | _ :: _ => Err ValueError
  | [] => Ok (map (on_finite (fun v => v * sigma + mean)) (trfun (map (fun v => (v - ymean) / ysigma) y)))
  end.
(* transform/models.py:550-558 *)
Definition ochi_dat2gauss (brentq : (R -> R) -> R -> R -> R) (o : ochi) (x : list R) (xi : list (list R)) : res (list (option R)) :=
  let* p := get_par brentq o in
  let s := base o in transformgauss (ochi_forward p) (ymean s) (ysigma s) (mean s) (sigma s) x xi.
Definition ochi_gauss2dat (brentq : (R -> R) -> R -> R -> R) (o : ochi) (y : list R) (yi : list (list R)) : res (list (option R)) :=
  let* p := get_par brentq o in
  let s := base o in transformgauss (ochi_backward p) (mean s) (sigma s) (ymean s) (ysigma s) y yi.
(* the user assigns to an attribute *)
Definition set_stats (o : ochi) (s : stats) : ochi := Ochi s (cache o).

(* ---- TrHermite ----------------------------------------------------------------------------- *)
(* numpy ** for a real exponent: nan for a negative base (integer exponents other than 0 are not distinguished), inf for 0 to a
   negative power.  For Python floats a negative base would give a complex number instead *)
Definition power (b e : R) : option R :=
  if Req_EM_T e 0 then Some 1
  else if Rlt_dec 0 b then Some (Rpower b e)
  else if Req_EM_T b 0 then (if Rlt_dec 0 e then Some 0 else None) else None.
Definition sqrt_ (v : R) : option R := if Rlt_dec v 0 then None else Some (sqrt v).
Definition obind (v : option R) (f : R -> option R) : option R := match v with Some w => f w | None => None end.
(* transform/models.py:165-170  _check_c3_c4 *)
Definition check_c3_c4 (eps : R) (c3 c4 : option R) : res (R * R) :=
  match c3, c4 with
  | Some a, Some b => Ok (a, if Rlt_dec (Rabs b) (sqrt eps) then 0 else b)
  | _, _ => Err ValueError
  end.
(* transform/models.py:172-180  _winterstein1988 (the warning is not modelled) *)
Definition winterstein1988 (eps skew ek : R) : res (R * R) :=
  let c4 := match sqrt_ (1 + 1.5 * ek) with Some r => Some ((r - 1) / 18) | None => None end in
  let c3 := match c4 with Some c => Some (skew / (6 * (1 + 6 * c))) | None => None end in
  check_c3_c4 eps c3 c4.
(* transform/models.py:182-203  _winterstein1994 (the warnings are not modelled) *)
Definition winterstein1994 (eps skew ek : R) : res (R * R) :=
  let c3 := skew / 6 * (1 - 0.015 * Rabs skew + 0.3 * skew ^ 2) / (1 + 0.2 * ek) in
  let c4 :=
    if Req_EM_T ek 0 then Some 0
    else
      obind (power (ek + 3) 0.8) (fun k =>
      let expon := 1 - 0.1 * k in
      obind (power (1 - 1.43 * skew ^ 2 / ek) expon) (fun c41 =>
      obind (power (1 + 1.25 * ek) (1 / 3)) (fun r => Some (0.1 * (r - 1) * c41)))) in
  check_c3_c4 eps (Some c3) c4.
(* transform/models.py:205-209  _hardening_parameters *)
Definition hardening_parameters (eps skew ek : R) : res (R * R) := check_c3_c4 eps (Some (skew / 6)) (Some (ek / 24)).

(* numpy polyval of poly1d coefficients (highest power first) *)
Definition polyval (p : list R) (x : R) : R := fold_left (fun acc c => acc * x + c) p 0.
(* np.roots of a polynomial of degree at most two with abs(imag) < eps, or nothing *)
Definition real_roots (eps : R) (p : list R) : list R :=
  match p with
  | [a; b] => [- b / a]
  | [a; b; c] =>
      let d := b ^ 2 - 4 * a * c in
      if Rle_dec 0 d then [(- b + sqrt d) / (2 * a); (- b - sqrt d) / (2 * a)]
      else if Rlt_dec (sqrt (- d) / (2 * Rabs a)) eps then [- b / (2 * a); - b / (2 * a)] else []
  | _ => []
  end.
(* transform/models.py:211-220  _set_x_limit: '%g' % array raises TypeError unless the array has exactly one entry *)
Definition set_x_limit (s : stats) (root p : list R) : res (list R) :=
  let x_limit := if Rle_dec (kurt s) 3 then root else map (fun r => sigma s * polyval p r + mean s) root in
  match x_limit with [_] => Ok x_limit | _ => Err TypeError end.
(* transform/models.py:222-227  _check_monotonicity *)
Definition check_monotonicity (eps : R) (s : stats) (p : list R) : res (option (list R)) :=
  match real_roots eps (poly1d (polyder1 p)) with
  | [] => Ok None
  | roots => let* l := set_x_limit s roots p in Ok (Some l)
  end.
(* the object: the polynomial (poly1d coefficients), whether it is the forward one, and _x_limit *)
Record hermite := Hermite { h_base : stats; h_forward : bool; h_poly : list R; x_limit : option (list R) }.
(* transform/models.py:229-236  _set_hardening_model *)
Definition set_hardening_model (eps : R) (s : stats) : res hermite :=
  let* (c3, c4) := hardening_parameters eps (skew s) (kurt s - 3) in
  let p := poly1d [- c4; - c3; 1 + 3 * c4; c3] in
  let* l := check_monotonicity eps s p in
  Ok (Hermite s true p l).
(* transform/models.py:238-249  _set_softening_model *)
Definition set_softening_model (eps : R) (pardef : Z) (s : stats) : res hermite :=
  let* (c3, c4) := (if Z.eqb pardef 2 then winterstein1988 else winterstein1994) eps (skew s) (kurt s - 3) in
  let km1 := sqrt (1 + 2 * c3 ^ 2 + 6 * c4 ^ 2) in
  let p := poly1d (map (fun c => c / km1) [c4; c3; 1 - 3 * c4; - c3]) in
  let* l := check_monotonicity eps s p in
  Ok (Hermite s false p l).
(* transform/models.py:143-151, 251-258  __init__ and set_poly *)
Definition hermite_init (eps : R) (pardef : Z) (s : stats) : res hermite :=
  if Rle_dec (kurt s) 3 then set_hardening_model eps s else set_softening_model eps pardef s.

(* transform/models.py:260-275  check_forward.  np.logical_and(x[0] <= x00, x00 <= x[-1]) etc. *)
Definition leb (a b : R) : bool := if Rle_dec a b then true else false.
Definition check_forward (h : hermite) (x : list R) : res unit :=
  match x_limit h with
  | None => Ok tt
  | Some x00 =>
      match x with
      | [] => Err IndexError
      | x0 :: _ =>
          let xe := last x x0 in
          let cdef := if existsb (fun v => leb x0 v && leb v xe) x00 then 1%nat
                      else List.length (filter (fun v => xorb (leb v x0) (leb v xe)) x00) in
          if Nat.odd cdef then Err ValueError else Ok tt
      end
  end.
(* transform/models.py:293-302  _solve_quadratic, one element *)
Definition solve_quadratic (p : list R) (x : R) : option R :=
  let a := nth 0 p 0 in
  let b := nth 1 p 0 in
  let c := nth 2 p 0 - x in
  match sqrt_ (b ^ 2 - 4 * a * c) with
  | None => None
  | Some r => let t := 0.5 * (b + sign b * r) in if Req_EM_T t 0 then None else Some (- c / t)
  end.
(* transform/models.py:315-355  _solve_third_order, one element, when _x_limit is None *)
Definition solve_third_order (p : list R) (x : R) : option R :=
  let c0 := nth 0 p 0 in
  let a := nth 1 p 0 / c0 in
  let b := nth 2 p 0 / c0 in
  let c := nth 3 p 0 / c0 - x / c0 in
  let x0 := a / 3 in
  let p1 := b / 3 - x0 ^ 2 in
  let q0 := x0 * (x0 ^ 2 - b / 2) + c / 2 in
  match sqrt_ (q0 ^ 2 + p1 ^ 3) with
  | None => None
  | Some q1 =>
      match power (q1 - q0) (1 / 3), power (q1 + q0) (1 / 3) with
      | Some A0, Some B0 => Some (A0 - B0 - x0)
      | _, _ => None
      end
  end.
(* transform/models.py:304-313  _poly_inv.  With a limit the third order branch indexes an array with the float ceil(len(xn) / 2) *)
Definition poly_inv (limit : option (list R)) (p : list R) (x : list R) : res (list (option R)) :=
  match List.length p with
  | 4%nat => match limit with Some _ => Err IndexError | None => Ok (map (solve_third_order p) x) end
  | 3%nat => Ok (map (solve_quadratic p) x)
  | _ => Ok (map Some x)
  end.
Definition direct (p : list R) (x : list R) : res (list (option R)) := Ok (map (fun v => Some (polyval p v)) x).
(* transform/models.py:277-284  _dat2gauss *)
Definition hermite_dat2gauss (h : hermite) (x : list R) (xi : list (list R)) : res (list (option R)) :=
  match xi with
  | _ :: _ => Err ValueError
  | [] =>
      let s := h_base h in
      let* _ := check_forward h x in
      let xn := map (fun v => (v - mean s) / sigma s) x in
      let* yn := if h_forward h then direct (h_poly h) xn else poly_inv (x_limit h) (h_poly h) xn in
      Ok (map (on_finite (fun v => v * ysigma s + ymean s)) yn)
  end.
(* transform/models.py:286-291  _gauss2dat *)
Definition hermite_gauss2dat (h : hermite) (y : list R) (yi : list (list R)) : res (list (option R)) :=
  match yi with
  | _ :: _ => Err ValueError
  | [] =>
      let s := h_base h in
      let yn := map (fun v => (v - ymean s) / ysigma s) y in
      let* xn := if h_forward h then poly_inv (x_limit h) (h_poly h) yn else direct (h_poly h) yn in
      Ok (map (on_finite (fun v => sigma s * v + mean s)) xn)
  end.
