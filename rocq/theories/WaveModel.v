(* Model of src/wafo/wave_theory/core.py and src/wafo/wave_theory/dispersion_relation.py over exact real numbers.  Where infinite
   values and nan matter they are values of the type xval. *)
From Coq Require Import Reals ZArith String Ascii.
From Coquelicot Require Import Complex.
From Verif Require Import Base PolyModel.
Local Open Scope R_scope.

(* ---- extended reals with the rules of floating-point arithmetic --------------------------------- *)
Inductive xval := Num (r : R) | PInf | NInf | Nan.
Definition xneg (v : xval) : xval := match v with Num r => Num (- r) | PInf => NInf | NInf => PInf | Nan => Nan end.
Definition sgn (x : R) : R := if Rlt_dec x 0 then -1 else if Rlt_dec 0 x then 1 else 0.
(* infinity of the sign of r; 0 * inf is nan *)
Definition xinf (r : R) : xval := if Rlt_dec r 0 then NInf else if Rlt_dec 0 r then PInf else Nan.
Definition xmul (a b : xval) : xval :=
  match a, b with
  | Num x, Num y => Num (x * y)
  | Num x, PInf | PInf, Num x => xinf x
  | Num x, NInf | NInf, Num x => xneg (xinf x)
  | PInf, PInf | NInf, NInf => PInf
  | PInf, NInf | NInf, PInf => NInf
  | _, _ => Nan
  end.
Definition xabs (v : xval) : xval := match v with Num r => Num (Rabs r) | PInf | NInf => PInf | Nan => Nan end.
(* s * v < 0 for a sign s *)
Definition negative (s : R) (v : xval) : bool :=
  match v with
  | Num r => if Rlt_dec (s * r) 0 then true else false
  | PInf => if Rlt_dec s 0 then true else false
  | NInf => if Rlt_dec 0 s then true else false
  | Nan => false
  end.
(* exp(-2 v) for v = abs of something *)
Definition exp_m2 (v : xval) : xval := match v with Num r => Num (exp (-2 * r)) | PInf => Num 0 | NInf => PInf | Nan => Nan end.
(* exp(a - b) for a, b of that form *)
Definition exp_diff (a b : xval) : xval :=
  match a, b with
  | Num x, Num y => Num (exp (x - y))
  | PInf, Num _ => PInf
  | Num _, PInf => Num 0
  | _, _ => Nan
  end.

(* core.py:69-70 *)
Definition hyper_term (s : R) (v : xval) : xval :=
  match exp_m2 v with Num e => Num (if Rlt_dec s 0 then e - 1 else 1 + e) | _ => Nan end.
(* core.py:15-76 hyperbolic_ratio for one entry; sa and sb are replaced by their signs in line 58 *)
Definition hyperbolic_ratio (a b : xval) (sa sb : R) : xval :=
  let sak := sgn sa in
  let sbk := sgn sb in
  let sign_ratio := if negative sak a then sak else 1 in
  let sign_ratio := if negative sbk b then sbk * sign_ratio else sign_ratio in
  let bk := xabs b in
  let ak := xabs a in
  let val :=
    match hyper_term sak ak, hyper_term sbk bk with
    | Num num, Num den =>
        if Req_EM_T num den then Num 1 else if Req_EM_T den 0 then xmul (Num num) PInf else Num (num * (1 / den))
    | _, _ => Nan
    end in
  xmul (xmul (Num sign_ratio) (exp_diff ak bk)) val.

(* ---- sensor types ------------------------------------------------------------------------------- *)
(* str.lower for ascii *)
Definition lower_char (c : ascii) : ascii :=
  let n := nat_of_ascii c in if ((65 <=? n) && (n <=? 90))%nat then ascii_of_nat (n + 32) else c.
Fixpoint lower (s : string) : string :=
  match s with EmptyString => EmptyString | String c s' => String (lower_char c) (lower s') end.
(* core.py:122-124 *)
Definition sensorid_table : list (string * Z) :=
  [("n", 0); ("n_t", 1); ("n_tt", 2); ("n_x", 3); ("n_y", 4); ("n_xx", 5); ("n_yy", 6); ("n_xy", 7); ("p", 8); ("u", 9); ("v", 10);
   ("w", 11); ("u_t", 12); ("v_t", 13); ("w_t", 14); ("x_p", 15); ("y_p", 16); ("z_p", 17)]%string%Z.
(* an argument: a string, a number or nan *)
Inductive arg := Str (s : string) | Int (z : Z) | NaNArg.
Fixpoint lookup (t : list (string * Z)) (s : string) : option Z :=
  match t with [] => None | (k, v) :: t' => if String.eqb k s then Some v else lookup t' s end.
(* core.py:79-128 sensor_typeid; the bare except turns every failure into ValueError *)
Definition typeid1 (a : arg) : res arg :=
  match a with
  | Str s => Ok (match lookup sensorid_table (lower s) with Some i => Int i | None => NaNArg end)
  | _ => Err ValueError
  end.
Fixpoint mapM {A B} (f : A -> res B) (l : list A) : res (list B) :=
  match l with [] => Ok [] | a :: l' => let* b := f a in let* bs := mapM f l' in Ok (b :: bs) end.
Definition sensor_typeid (names : list arg) : res (list arg) := mapM typeid1 names.
(* core.py:171-173; the last entry is nan *)
Definition valid_names : list arg :=
  map Str ["n"; "n_t"; "n_tt"; "n_x"; "n_y"; "n_xx"; "n_yy"; "n_xy"; "p"; "u"; "v"; "w"; "u_t"; "v_t"; "w_t"; "x_p"; "y_p"; "z_p"]%string ++ [NaNArg].
(* core.py:131-179 sensor_type, called with the list of ids as its arguments.  hstack of no arrays raises ValueError (175-176).
   One nan makes the whole id array a float array, whose entries are no valid tuple indices; strings cannot be compared with 0. *)
Definition type1 (i : Z) : res arg :=
  let n := (Z.of_nat (List.length valid_names) - 1)%Z in
  let i := if ((i <? 0) || (n <? i))%Z%bool then n else i in
  match nth_error valid_names (Z.to_nat i) with Some s => Ok s | None => Err IndexError end.
Definition as_int (a : arg) : res Z := match a with Int z => Ok z | _ => Err TypeError end.
Definition sensor_type (ids : list arg) : res (list arg) :=
  match ids with
  | [] => Err ValueError
  | _ => let* zs := mapM as_int ids in mapM type1 zs
  end.

(* ---- dispersion relation ------------------------------------------------------------------------ *)
(* a water depth: np.inf or a number *)
Inductive depth := Deep | Depth (h : R).
Definition tanh_depth (k : R) (h : depth) : R := match h with Deep => sgn k | Depth h => tanh (k * h) end.
(* np.arctan2(y, x), finite arguments *)
Definition arctan2 (y x : R) : R :=
  let r := sqrt (x ^ 2 + y ^ 2) in
  if Req_EM_T r 0 then 0 else if Rle_dec 0 y then acos (x / r) else - acos (x / r).
(* dispersion_relation.py:75-95 k2w, one entry.  The warning of line 88 is not modelled. *)
Definition k2w1 (k1 k2 : R) (h : depth) (g u1 u2 : R) : R * R :=
  let k := sqrt (k1 ^ 2 + k2 ^ 2) in
  let w := if Rlt_dec 0 k then k1 * u1 + k2 * u2 + sqrt (g * k * tanh_depth k h) else 0 in
  (if Rle_dec 0 w then w else 0, arctan2 k2 k1).
(* What the caller gets: one array or a pair of arrays *)
Inductive answer := Single (a : list R) | Pair (a b : list R).
(* k2w for equally long (broadcast) arrays *)
Definition k2w (pts : list (R * R * depth * R * R * R)) : answer :=
  match pts with
  | [] => Single []
  | _ => let r := map (fun p => match p with (k1, k2, h, g, u1, u2) => k2w1 k1 k2 h g u1 u2 end) pts in Pair (map fst r) (map snd r)
  end.

(* dispersion_relation.py:152 and 166: 1e25 *)
Definition is_deep (h : depth) : bool := match h with Deep => true | Depth h => if Rlt_dec (10 ^ 25) h then true else false end.
Definition below_limit (h : depth) : bool := match h with Deep => false | Depth h => if Rlt_dec h (10 ^ 25) then true else false end.
(* one point of the iteration: its frequency, depth, current wave number, last step and whether it is in ix *)
Record point := Point { pw : R; ph : depth; pk : R; phn : R; active : bool }.
Definition deep_k (g w : R) : R := 1 * sgn w * w ^ 2 / g.
Definition depth_value (h : depth) : R := match h with Depth h => h | Deep => 0 end.
(* dispersion_relation.py:174-188: one Newton step; nan does not occur for h > 0 *)
Definition slope (kh : R) : R := tanh kh + (if Rlt_dec (Rabs kh) 350 then kh / cosh kh ^ 2 else 0).
Definition newton (g : R) (p : point) : point :=
  if active p then
    let ki := pk p in
    let kh := ki * depth_value (ph p) in
    let hn := (ki * tanh kh - pw p ^ 2 / g) / slope kh in
    let knew := ki - hn in
    if Req_EM_T (Rabs knew) 0 then Point (pw p) (ph p) (ki / 10) (ki - ki / 10) true
    else Point (pw p) (ph p) knew hn true
  else p.
(* dispersion_relation.py:192-193: the new ix *)
Definition reactivate (rtol atol : R) (p : point) : point :=
  Point (pw p) (ph p) (pk p) (phn p)
    (if Rlt_dec (rtol * Rabs (pk p)) (Rabs (phn p)) then if Rlt_dec atol (Rabs (phn p)) then true else false else false).
(* dispersion_relation.py:173-196; the flag tells whether count < count_limit at the end, i.e. no warning *)
Fixpoint w2k_loop (g rtol atol : R) (limit : nat) (pts : list point) : list point * bool :=
  match limit with
  | O => (pts, false)
  | S l => if existsb active pts then w2k_loop g rtol atol l (map (fun p => reactivate rtol atol (newton g p)) pts) else (pts, true)
  end.
Definition start (g w : R) (h : depth) : point :=
  Point w h (deep_k g w) 0 (if Req_EM_T w 0 then false else below_limit h).
(* dispersion_relation.py:98-203 w2k for equally long (broadcast) arrays of frequencies, directions and depths; g has one or two
   entries.  The second component tells that no warning was issued. *)
Definition w2k (pts : list (R * R * depth)) (g : list R) (count_limit : nat) (rtol atol : R) : res (answer * bool) :=
  match pts with
  | [] => Ok (Single [], true)
  | _ =>
    let g0 := hd 0 g in
    let ths := map (fun p => snd (fst p)) pts in
    let pair ks c := Pair (map (fun q => fst q * cos (snd q)) (combine ks ths)) (map (fun q => fst q * sin (snd q) * c) (combine ks ths)) in
    if forallb (fun p => is_deep (snd p)) pts then
      Ok (pair (map (fun p => deep_k g0 (fst (fst p))) pts) (g0 / last g 0), true)
    else if (List.length g =? 1)%nat then
      let (r, ok) := w2k_loop g0 rtol atol count_limit (map (fun p => start g0 (fst (fst p)) (snd p)) pts) in
      Ok (pair (map pk r) 1, ok)
    else Err ValueError
  end.

(* ---- TransferFunction --------------------------------------------------------------------------- *)
(* the fields of the object; the sensor type is an argument below *)
Record transfer := Transfer { px : R; py : R; pz : R; water : depth; grav : R; rho : R; bet : R; igam : Z; thetax : R; thetay : R }.
Inductive sensor := N | N_t | N_tt | N_x | N_y | N_xx | N_yy | N_xy | P | U | V | W | U_t | V_t | W_t | X_p | Y_p | Z_p.
Definition cis (t : R) : C := (cos t, sin t).
(* core.py:359-373 _get_ee_cthxy *)
Definition cthx (tf : transfer) (theta : R) : R := bet tf * cos (theta - thetax tf * PI / 180 + PI / 2).
Definition cthy (tf : transfer) (theta : R) : R := bet tf * sin (theta - thetay tf * PI / 180).
Definition ee (tf : transfer) (theta kw : R) : C := cis ((px tf * cthx tf theta + py tf * cthy tf theta) * kw).
(* kw * h and kw * (h + z) where h may be infinite *)
Definition times_depth (kw : R) (h : depth) (z : R) : xval := match h with Depth h => Num (kw * (h + z)) | Deep => xinf kw end.
(* core.py:375-386 _get_zk *)
Definition zk (tf : transfer) (kw : R) : xval :=
  if Z.eqb (igam tf) 1 then times_depth kw (water tf) (pz tf)
  else if Z.eqb (igam tf) 2 then times_depth kw (water tf) (- pz tf)
  else Num (kw * pz tf).
Definition hk (tf : transfer) (kw : R) : xval := times_depth kw (water tf) 0.
(* core.py:389-514 the functions _n ... _z_p at one frequency and direction: Hw, and the factor of ee in Gwt *)
Definition ratio (tf : transfer) (kw sa sb : R) : xval := hyperbolic_ratio (zk tf kw) (hk tf kw) sa sb.
Definition hw (tf : transfer) (s : sensor) (w kw : R) : xval :=
  match s with
  | N => Num 1
  | N_t => Num w
  | N_tt => Num (w ^ 2)
  | N_x | N_y => Num kw
  | N_xx | N_yy | N_xy => Num (kw ^ 2)
  | P => xmul (Num (rho tf * grav tf)) (ratio tf kw 1 1)
  | U | V => xmul (Num w) (ratio tf kw 1 (-1))
  | W => xmul (Num w) (ratio tf kw (-1) (-1))
  | U_t | V_t => xmul (Num (w ^ 2)) (ratio tf kw 1 (-1))
  | W_t => xmul (Num (w ^ 2)) (ratio tf kw (-1) (-1))
  | X_p | Y_p => ratio tf kw 1 (-1)
  | Z_p => ratio tf kw (-1) (-1)
  end.
Definition gw (tf : transfer) (s : sensor) (theta kw : R) : C :=
  let e := ee tf theta kw in
  let cx := RtoC (cthx tf theta) in
  let cy := RtoC (cthy tf theta) in
  match s with
  | N | P | Z_p => e
  | N_t | W => Cmult (Copp Ci) e
  | N_tt | W_t => Copp e
  | N_x | X_p => Cmult (Cmult Ci cx) e
  | N_y | Y_p => Cmult (Cmult Ci cy) e
  | N_xx => Cmult (Copp (Cmult cx cx)) e
  | N_yy => Cmult (Copp (Cmult cy cy)) e
  | N_xy => Cmult (Cmult (Copp cx) cy) e
  | U => Cmult cx e
  | V => Cmult cy e
  | U_t => Cmult (Cmult (Copp Ci) cx) e
  | V_t => Cmult (Cmult (Copp Ci) cy) e
  end.
(* core.py:340-341: what is not finite becomes 0 *)
Definition finite_or_0 (v : xval) : R := match v with Num r => r | _ => 0 end.
(* core.py:298-354 tran with kw given (the default is w2k), w and kw equally long.  Hw has one dimension, so line 347 raises
   IndexError when it is reached. *)
Definition tran (tf : transfer) (s : sensor) (wk : list (R * R)) (theta : list R) : res (list R * list (list C)) :=
  let Hw := map (fun p => finite_or_0 (hw tf s (fst p) (snd p))) wk in
  let Gwt := map (fun th => map (fun p => gw tf s th (snd p)) wk) theta in
  if existsb (fun v => if Rlt_dec v 0 then true else false) Hw then Err IndexError
  else Ok (Hw, if Z.eqb (igam tf) 2 then map (map Copp) Gwt else Gwt).
(* core.py:284-296 and 335: the sensor types _tran_dict knows *)
Definition sensors : list (string * sensor) :=
  [("n", N); ("n_t", N_t); ("n_tt", N_tt); ("n_x", N_x); ("n_y", N_y); ("n_xx", N_xx); ("n_yy", N_yy); ("n_xy", N_xy);
   ("P", P); ("p", P); ("U", U); ("u", U); ("V", V); ("v", V); ("W", W); ("w", W); ("U_t", U_t); ("u_t", U_t); ("V_t", V_t); ("v_t", V_t);
   ("W_t", W_t); ("w_t", W_t); ("X_p", X_p); ("x_p", X_p); ("Y_p", Y_p); ("y_p", Y_p); ("Z_p", Z_p); ("z_p", Z_p)]%string.
Fixpoint tran_dict (t : list (string * sensor)) (s : string) : res sensor :=
  match t with [] => Err KeyError | (k, v) :: t' => if String.eqb k s then Ok v else tran_dict t' s end.
(* core.py:275-276: a sensor type that is not a string is replaced by the tuple of names that sensor_type returns, and a tuple is
   not a key of the dictionary *)
Definition find_sensor (a : arg) : res sensor :=
  match a with
  | Str s => tran_dict sensors s
  | _ => let* _ := sensor_type [a] in Err KeyError
  end.

(* core.py:517-584 wave_pressure; Tm02 (560-562) and the wave number (564) are arguments *)
Definition wave_pressure (z Hm0 h g rho kw : R) : xval :=
  xmul (Num (rho * g * Hm0 / 2)) (hyperbolic_ratio (Num (kw * h + kw * z)) (Num (kw * h)) 1 1).
