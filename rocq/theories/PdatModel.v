(* Model of src/wafo/containers.py over exact real numbers: PlotData.eval_points, to_cdf, integrate
   for one-dimensional args, AxisLabels.labelfig, transformdata_1d, set_axis and
   _get_contour_levels.  nan is None.  Drawing itself is not modelled. *)
From Coq Require Import Reals List ZArith String Ascii Bool.
From Verif Require Import Base PolyModel FilterModel GridModel WaveModel KdeModel ProcModel TransModel.
Import ListNotations.
Local Open Scope string_scope.
Local Open Scope list_scope.
Local Open Scope R_scope.

(* containers.py:32-92 PlotData.  args is a vector, or a list of vectors for more dimensions; data is
   a vector, or a matrix given by the number of its columns and by its rows.  The labels and the
   arguments for plotting are left out *)
Inductive arg := Vec (x : list R) | Many (l : list (list R)).
Inductive dat := D1 (f : list R) | D2 (m : nat) (rows : list (list R)).
Inductive plotdata := PD (data : dat) (args : arg) (children : option (list plotdata)).
Definition data_of (p : plotdata) : dat := match p with PD d _ _ => d end.
Definition args_of (p : plotdata) : arg := match p with PD _ a _ => a end.
Definition children_of (p : plotdata) : option (list plotdata) := match p with PD _ _ c => c end.

Definition rlt (a b : R) : bool := if Rlt_dec a b then true else false.

(* containers.py:156-157 griddata(args, data, point) with method linear: scipy sorts the points and
   interpolates linearly between them; nan outside.  Fewer than two points are refused (by older
   versions of scipy), and so are vectors of different lengths *)
Definition eval_points (x f : list R) (t : R) : res (option R) :=
  if (List.length x <? 2)%nat || negb (List.length x =? List.length f)%nat then Err ValueError
  else
    let rows := sort_rows (combine x f) in
    let xs := map fst rows in
    Ok (if rlt t (hd 0 xs) || rlt (last xs 0) t then None else Some (interp xs (map snd rows) t)).

(* scipy.integrate.cumulative_trapezoid(f, x) without initial *)
Fixpoint cumtrapz_from (acc : R) (f x : list R) : list R :=
  match f, x with
  | f0 :: ((f1 :: _) as f'), x0 :: ((x1 :: _) as x') =>
      let s := acc + (x1 - x0) * (f0 + f1) / 2 in s :: cumtrapz_from s f' x'
  | _, _ => []
  end.
(* the shapes have to agree *)
Definition cumtrapz (f x : list R) : res (list R) :=
  if (List.length f =? List.length x)%nat then Ok (cumtrapz_from 0 f x) else Err ValueError.

(* containers.py:159-163 to_cdf for a vector of data *)
Definition to_cdf (p : plotdata) : res plotdata :=
  match args_of p, data_of p with
  | Many _, _ => Err NotImplementedError
  | Vec x, D1 f => let* c := cumtrapz f x in Ok (PD (D1 (0 :: c)) (Vec x) None)
  | Vec _, D2 _ _ => Err ValueError            (* hstack of a number and a matrix *)
  end.

(* trapz of values that may be nan *)
Fixpoint all_some (l : list (option R)) : option (list R) :=
  match l with
  | [] => Some []
  | None :: _ => None
  | Some v :: l' => match all_some l' with Some r => Some (v :: r) | None => None end
  end.
Definition trapz_nan (fi : list (option R)) (xi : list R) : option R :=
  match all_some fi with Some f => Some (trapz f xi) | None => None end.

(* containers.py:165-173 the positions strictly between the limits, and the abscissas *)
Definition between (a b : R) (x : list R) : list nat := filter (fun i => rlt a (at_R x i) && rlt (at_R x i) b) (seq 0 (List.length x)).
Definition lower (a : option R) (x : list R) : res R := match a with Some v => Ok v | None => geti x 0 end.
Definition upper (b : option R) (x : list R) : res R := match b with Some v => Ok v | None => getz x (-1) end.
Definition abscissas (a b : R) (x : list R) : list R := a :: map (at_R x) (between a b x) ++ [b].
(* containers.py:175-182 the ordinates of one column *)
Definition ordinates (a b : R) (x f : list R) : res (list (option R)) :=
  let* fa := eval_points x f a in
  let* fb := eval_points x f b in
  Ok (fa :: map (fun i => Some (at_R f i)) (between a b x) ++ [fb]).
Definition column (rows : list (list R)) (j : nat) : list R := map (fun r => at_R r j) rows.

(* containers.py:183-205 integrate with method trapz; a number or a vector comes back *)
Inductive value := Num (v : option R) | Arr (l : list (option R)).
Definition ravel (v : value) : list (option R) := match v with Num w => [w] | Arr l => l end.
Definition integrate1 (p : plotdata) (a b : option R) : res value :=
  match args_of p with
  | Many _ => Err NotImplementedError
  | Vec x =>
      let* a' := lower a x in
      let* b' := upper b x in
      let xi := abscissas a' b' x in
      match data_of p with
      | D1 f => let* fi := ordinates a' b' x f in Ok (Num (trapz_nan fi xi))
      | D2 m rows =>
          let* l := mapM (fun j => let* fi := ordinates a' b' x (column rows j) in Ok (trapz_nan fi xi)) (seq 0 m) in
          Ok (Arr l)
      end
  end.
(* containers.py:200-204 return_ci; np.ravel of a list wants results of one shape *)
Definition shape (v : value) : option nat := match v with Num _ => None | Arr l => Some (List.length l) end.
Definition same_shape (u v : value) : bool :=
  match shape u, shape v with None, None => true | Some m, Some n => (m =? n)%nat | _, _ => false end.
Definition all_same (l : list value) : bool := match l with [] => true | v :: l' => forallb (same_shape v) l' end.
Definition integrate (p : plotdata) (a b : option R) (return_ci : bool) : res value :=
  let* v := integrate1 p a b in
  if return_ci then
    match children_of p with
    | None => Err TypeError                    (* None cannot be iterated *)
    | Some cs =>
        let* l := mapM (fun c => integrate1 c a b) cs in
        if all_same l then Ok (Arr (ravel v ++ flat_map ravel l)) else Err ValueError
    end
  else Ok v.

(* containers.py:524-536 transformdata_1d; None for the logarithm of a number that is not positive
   (-inf or nan) *)
Definition ln_ (v : R) : option R := if Rlt_dec 0 v then Some (ln v) else None.
Definition transformdata_1d (x f : list R) (plotflag : Z) : res (list (option R)) :=
  match (plotflag / 10 mod 10)%Z with
  | 0%Z => Ok (map Some f)
  | 1%Z => Ok (map (fun v => Some (1 - v)) f)
  | 2%Z => let* c := cumtrapz f x in Ok (map Some c)
  | 3%Z => let* c := cumtrapz f x in Ok (map (fun v => Some (1 - v)) c)
  | 4%Z => Ok (map ln_ f)
  | 5%Z => Ok (map (fun v => ln_ (1 - v)) f)
  | 6%Z => let* c := cumtrapz f x in Ok (map ln_ c)
  | 7%Z => let* c := cumtrapz f x in Ok (map (fun v => ln_ (1 - v)) c)
  | 8%Z => Ok (map (fun v => match ln_ v with Some w => Some (10 * (w / ln 10)) | None => None end) f)
  | _ => Err IndexError
  end.
(* matplotlib's axis.plot(x, y) refuses vectors of different lengths; containers.py:408-417 *)
Definition plot_points (x f : list R) (plotflag : Z) : res (list (R * option R)) :=
  if (plotflag mod 10 =? 0)%Z then let* _ := transformdata_1d x f plotflag in Ok []
  else
    let* d := transformdata_1d x f plotflag in
    if (List.length x =? List.length d)%nat then Ok (combine x d) else Err ValueError.

(* containers.py:381-390 set_axis: the limits (xmin, xmax, ymin, ymax) *)
Definition set_axis (ax : R * R * R * R) (f_max : R) (trans_flag : Z) (log_scale : bool) : R * R * R * R :=
  if log_scale || ((trans_flag =? 5)%Z && negb log_scale) then
    let '(x0, x1, _, _) := ax in
    if (trans_flag =? 8)%Z && negb log_scale then
      let y1 := 11 * (ln f_max / ln 10) in (x0, x1, y1 - 40, y1)
    else
      let y1 := 115 / 100 * f_max in (x0, x1, y1 * (1 / 10000), y1)
  else ax.

(* containers.py:561-577 _get_contour_levels without levels of the caller, and with them *)
Definition fractions : list R := [1 / 100; 25 / 1000; 5 / 100; 1 / 10; 2 / 10; 4 / 10; 5 / 10; 75 / 100].
Definition contour_levels (clevels data : list R) : list R :=
  sortR (if (0 <? List.length clevels)%nat then clevels
         else map (fun p => maxR data - (maxR data - minR data) * (1 - p)) fractions).

(* str.lower and str.strip for ASCII *)
Definition lower_char (c : ascii) : ascii :=
  let n := nat_of_ascii c in if (65 <=? n)%nat && (n <=? 90)%nat then ascii_of_nat (n + 32) else c.
Definition space_char (c : ascii) : bool :=
  let n := nat_of_ascii c in (n =? 32)%nat || ((9 <=? n)%nat && (n <=? 13)%nat) || ((28 <=? n)%nat && (n <=? 31)%nat).
Fixpoint lower_str (s : string) : string := match s with EmptyString => EmptyString | String c s' => String (lower_char c) (lower_str s') end.
Fixpoint lstrip (s : string) : string := match s with EmptyString => EmptyString | String c s' => if space_char c then lstrip s' else s end.
Fixpoint rstrip (s : string) : string :=
  match s with
  | EmptyString => EmptyString
  | String c s' => match rstrip s' with
                   | EmptyString => if space_char c then EmptyString else String c EmptyString
                   | r => String c r
                   end
  end.
Definition strip (s : string) : string := lstrip (rstrip s).

(* containers.py:276-311 AxisLabels; an axis with its texts *)
Record labels := Labels { title : string; xlab : string; ylab : string; zlab : string }.
Record axis := Axis { ax_title : string; ax_x : string; ax_y : string; ax_z : string }.
Definition newline : string := String (ascii_of_nat 10) EmptyString.
Definition add_title (txt title0 : string) : string :=
  if String.eqb (strip (lower_str title0)) (strip (lower_str txt)) then txt else String.append title0 (String.append newline txt).
Definition given (s : string) : bool := negb (String.eqb s "").
Definition set_title (a : axis) (s : string) : axis := Axis s (ax_x a) (ax_y a) (ax_z a).
Definition set_xlabel (a : axis) (s : string) : axis := Axis (ax_title a) s (ax_y a) (ax_z a).
Definition set_ylabel (a : axis) (s : string) : axis := Axis (ax_title a) (ax_x a) s (ax_z a).
Definition labelfig (l : labels) (a : axis) : axis :=
  let title0 := ax_title a in
  let a := if given (title l) then set_title a (add_title (title l) title0) else a in
  let a := if given (xlab l) then set_xlabel a (xlab l) else a in
  let a := if given (ylab l) then set_ylabel a (ylab l) else a in
  if given (zlab l) then set_ylabel a (zlab l) else a.
