(* Model of getshipchar and gravity (src/wafo/misc.py:1908-2012, 2123-2166) over exact reals, for a positive number as property. *)
From Coq Require Import Reals ZArith List Bool String.
From Verif Require Import Base.
Import ListNotations.
Local Open Scope R_scope.

(* np.round: the nearest whole number, the even one of two *)
Definition rint (x : R) : R :=
  let f := Int_part x in
  let d := x - IZR f in
  if Rlt_dec d (1 / 2) then IZR f else if Rlt_dec (1 / 2) d then IZR (f + 1) else if Z.even f then IZR f else IZR (f + 1).
(* a dictionary from names to numbers *)
Definition dict := list (string * R).
Fixpoint lookup (k : string) (d : dict) : option R := match d with [] => None | (a, v) :: d => if String.eqb a k then Some v else lookup k d end.
Fixpoint assign (k : string) (v : R) (d : dict) : dict := match d with [] => [(k, v)] | (a, w) :: d => if String.eqb a k then (a, v) :: d else (a, w) :: assign k v d end.
(* 1914-1916 valid_props, looked up by the first two letters *)
Definition valid_props (name : string) : res string :=
  let p := substring 0 2 name in
  if String.eqb p "le" then Ok "length"%string else if String.eqb p "be" then Ok "beam"%string else if String.eqb p "dr" then Ok "draught"%string
  else if String.eqb p "ma" then Ok "max_deadweigth"%string else if String.eqb p "se" then Ok "service_speed"%string else if String.eqb p "pr" then Ok "propeller_diameter"%string
  else Err KeyError.
(* 1918-1926 prop2max_dw.get(prop, identity) *)
Definition prop2max_dw (prop : string) (x : R) : R :=
  if String.eqb prop "length" then Rpower (x / (345 / 100)) (25 / 10)
  else if String.eqb prop "beam" then Rpower (x / (178 / 100)) (1 / (27 / 100))
  else if String.eqb prop "draught" then Rpower (x / (8 / 10)) (1 / (24 / 100))
  else if String.eqb prop "service_speed" then Rpower (x / (114 / 100)) (1 / (21 / 100))
  else if String.eqb prop "propeller_diameter" then Rpower (Rpower (x / (12 / 100)) (4 / 3) / (345 / 100)) (25 / 10)
  else x.
(* 1908-1928 _get_max_deadweight *)
Definition get_max_deadweight (kw : dict) : res (R * string) :=
  match kw with
  | [(name, value)] => let* prop := valid_props name in Ok (prop2max_dw prop value, prop)
  | _ => Err ValueError
  end.
(* 1981-2012 getshipchar *)
Definition getshipchar (kw : dict) : res dict :=
  let* (dw, prop) := get_max_deadweight kw in
  let length := rint (345 / 100 * Rpower dw (40 / 100)) in
  let length_err := Rpower length (13 / 100) in
  let beam := rint (178 / 100 * Rpower dw (27 / 100) * 10) / 10 in
  let draught := rint (80 / 100 * Rpower dw (24 / 100) * 10) / 10 in
  let speed := rint (114 / 100 * Rpower dw (21 / 100) * 10) / 10 in
  let p_diam := 12 / 100 * Rpower length (3 / 4) in
  let p_diam_err := 12 / 100 * Rpower length_err (3 / 4) in
  let max_deadweight := rint dw in
  Ok (assign (prop ++ "STD") 0
    [("beam", beam); ("beamSTD", beam * (10 / 100)); ("draught", draught); ("draughtSTD", draught * (22 / 100)); ("length", length); ("lengthSTD", length_err);
     ("max_deadweight", max_deadweight); ("max_deadweightSTD", 1 / 10 * max_deadweight); ("propeller_diameter", p_diam); ("propeller_diameterSTD", p_diam_err);
     ("service_speed", speed); ("service_speedSTD", speed * (10 / 100))])%string.
(* 2123-2166 gravity *)
Definition gravity (phi : R) : R :=
  let phir := phi * PI / 180 in
  978049 / 100000 * (1 + 52884 / 10000000 * sin phir ^ 2 - 59 / 10000000 * sin (2 * phir) ^ 2).
