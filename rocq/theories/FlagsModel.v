(* Model of the plot flag decoding of src/wafo/containers.py:434-519. *)
From Coq Require Import String.
From Verif Require Import Base.
Local Open Scope string_scope.
Local Open Scope list_scope.
Local Open Scope Z_scope.

(* list indexing with a Python integer: negative indices count from the end *)
Definition pyget {A} (l : list A) (i : Z) : res A :=
  let n := Z.of_nat (List.length l) in
  if (0 <=? i) && (i <? n) then geti l (Z.to_nat i)
  else if (- n <=? i) && (i <? 0) then geti l (Z.to_nat (n + i))
  else Err IndexError.

(* containers.py:434-497  plotscale *)
Definition plotscale (plotflag : Z) : res string :=
  let scaleId := plotflag / 100 in
  let scaleId :=
    if scaleId >? 7 then
      let b (c : bool) := if c then 1 else 0 in
      b (scaleId mod 10 >? 0) + b ((scaleId / 10) mod 10 >? 0) * 2
      + b ((scaleId / 100) mod 10 >? 0) * 4
    else scaleId in
  pyget ["linear"; "xlog"; "ylog"; "xylog"; "zlog"; "xzlog"; "yzlog"; "xyzlog"] scaleId.

(* containers.py:500-502  plotflag2plottype_1d *)
Definition plotflag2plottype_1d (plotflag : Z) : res string :=
  pyget [""; "plot"; "step"; "stem"; "errorbar"; "bar"] (plotflag mod 10).

(* containers.py:505-511  plotflag2transform_id: 'log(1-f)' 'log(cumtrapz(f))' are
   adjacent literals, which Python joins *)
Definition plotflag2transform_id (plotflag : Z) : res string :=
  pyget ["f"; "1-f"; "cumtrapz(f)"; "1-cumtrapz(f)"; "log(f)";
         "log(1-f)" ++ "log(cumtrapz(f))"; "log(cumtrapz(f))"; "log10(f)"]%string ((plotflag / 10) mod 10).

(* containers.py:514-519  transform_id2plotflag2 *)
Fixpoint lookup (k : string) (l : list (string * Z)) : res Z :=
  match l with
  | [] => Err KeyError
  | (k', v) :: l' => if String.eqb k k' then Ok v else lookup k l'
  end.
Definition transform_id2plotflag2 (transform_id : string) : res Z :=
  let* v := lookup transform_id
    [("", 0); ("None", 0); ("f", 0); ("1-f", 1); ("cumtrapz(f)", 2); ("1-cumtrapz(f)", 3);
     ("log(f)", 4); ("log(1-f)", 5); ("log(cumtrapz(f))", 6); ("log(1-cumtrapz(f))", 7);
     ("10log10(f)", 8)] in
  Ok (v * 10).

(* containers.py:522-534  transformdata_1d: the list of transforms has nine entries, in
   the order of the names used by transform_id2plotflag2 *)
Definition transform_names : list string :=
  ["f"; "1-f"; "cumtrapz(f)"; "1-cumtrapz(f)"; "log(f)"; "log(1-f)"; "log(cumtrapz(f))";
   "log(1-cumtrapz(f))"; "10log10(f)"].
Definition applied_transform (plotflag : Z) : res string :=
  pyget transform_names ((plotflag / 10) mod 10).
