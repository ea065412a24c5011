(* Model of the level-crossing and turning-point functions of
   src/wafo/misc.py, src/wafo/_misc_numba.py and source/c_library/c_functions.c.
   Samples are integers (see DESIGN.md, number domains); signals are finite lists. *)
From Coq Require Import String.
From Verif Require Import Base.
Local Open Scope Z_scope.
Local Open Scope list_scope.

(* ---- src/wafo/_misc_numba.py:34-70  _findcross --------------------------- *)

(* lines 49-60: the loop `for i in range(1, n)` that looks for the first sample
   off the level when y[0] == 0.  Result: (start, Some (index stored, dcross)),
   or (start, None) when the loop ends without break. *)
Fixpoint nb_first (y : list Z) (is : list nat) (start : nat)
  : res (nat * option (nat * Z)) :=
  match is with
  | [] => Ok (start, None)
  | i :: is' =>
      let* yi := getm y i in
      if yi <? 0 then Ok (i, Some ((i - 1)%nat, -1))
      else if yi >? 0 then Ok (i, Some ((i - 1)%nat, 1))
      else nb_first y is' i
  end.

(* storing an index into the caller's buffer `ind` of capacity cap *)
Definition push (cap : nat) (ind : list nat) (i : nat) : res (list nat) :=
  if (length ind <? cap)%nat then Ok (ind ++ [i]) else Err MemoryError.

(* lines 62-69: `for i in range(start, n - 1)` *)
Fixpoint nb_loop (y : list Z) (cap : nat) (is : list nat) (ind : list nat) (dcross : Z)
  : res (list nat) :=
  match is with
  | [] => Ok ind
  | i :: is' =>
      let* a := getm y i in
      let* b := getm y (S i) in
      if ((dcross =? -1) && (a <=? 0) && (0 <? b))
         || ((dcross =? 1) && (0 <=? a) && (b <? 0))
      then let* ind' := push cap ind i in nb_loop y cap is' ind' (- dcross)
      else nb_loop y cap is' ind dcross
  end.

(* lines 41-70; `cap` is the length of the buffer `ind` (73-77: len(xn)). *)
Definition nb_findcross (y : list Z) (cap : nat) : res (list nat) :=
  let n := length y in
  let* y0 := getm y 0 in
  if y0 <? 0 then nb_loop y cap (seq 0 (n - 1)) [] (-1)
  else if y0 >? 0 then nb_loop y cap (seq 0 (n - 1)) [] 1
  else
    let* r := nb_first y (seq 1 (n - 1)) 0 in
    match r with
    | (start, None) => nb_loop y cap (seq start (n - 1 - start)) [] 0
    | (start, Some (i, d)) =>
        let* ind := push cap [] i in
        nb_loop y cap (seq start (n - 1 - start)) ind d
    end.

(* ---- source/c_library/c_functions.c:129-167  findcross ------------------- *)

(* lines 140-155 *)
Fixpoint c_first (y : list Z) (v : Z) (is : list nat) (start : nat)
  : res (nat * option (nat * Z)) :=
  match is with
  | [] => Ok (start, None)
  | i :: is' =>
      let* yi := getm y i in
      if yi <? v then Ok (i, Some ((i - 1)%nat, -1))
      else if yi >? v then Ok (i, Some ((i - 1)%nat, 1))
      else c_first y v is' i
  end.

(* lines 157-164 *)
Fixpoint c_loop (y : list Z) (v : Z) (cap : nat) (is : list nat) (ind : list nat) (dcross : Z)
  : res (list nat) :=
  match is with
  | [] => Ok ind
  | i :: is' =>
      let* a := getm y i in
      let* b := getm y (S i) in
      if ((dcross =? -1) && (a <=? v) && (b >? v))
         || ((dcross =? 1) && (a >=? v) && (b <? v))
      then let* ind' := push cap ind i in c_loop y v cap is' ind' (- dcross)
      else c_loop y v cap is' ind dcross
  end.

(* lines 129-167; the f2py wrapper (c_library.pyf) allocates `ind` with n = len(y) *)
Definition c_findcross (y : list Z) (v : Z) : res (list nat) :=
  let n := length y in
  let* y0 := getm y 0 in
  if y0 <? v then c_loop y v n (seq 0 (n - 1)) [] (-1)
  else if y0 >? v then c_loop y v n (seq 0 (n - 1)) [] 1
  else
    let* r := c_first y v (seq 1 (n - 1)) 0 in
    match r with
    | (start, None) => c_loop y v n (seq start (n - 1 - start)) [] 0
    | (start, Some (i, d)) =>
        let* ind := push n [] i in
        c_loop y v n (seq start (n - 1 - start)) ind d
    end.

(* ---- src/wafo/misc.py:1003-1097  findcross ------------------------------- *)

(* line 1065: xn = int8(sign(x - v)); exact for integer (and for float) samples *)
Definition signs (x : list Z) (v : Z) : list Z := map (fun a => Z.sgn (a - v)) x.

(* lines 1066, 994-1000: which implementation computes the indices *)
Inductive impl := Numba | Clib.
Definition raw_findcross (m : impl) (xn : list Z) : res (list nat) :=
  match m with
  | Numba => nb_findcross xn (length xn)      (* _misc_numba.findcross, 73-77 *)
  | Clib => c_findcross xn 0                   (* clib.findcross(x, 0.0) *)
  end.

Definition string_in (s : string) (l : list string) : bool :=
  existsb (String.eqb s) l.

Local Open Scope string_scope.
Local Open Scope Z_scope.
(* lines 1067-1097.  `kind` is None or a string. *)
Definition findcross (m : impl) (x : list Z) (v : Z) (kind : option string)
  : res (list nat) :=
  let xn := signs x v in
  let* ind := raw_findcross m xn in
  match ind with
  | [] => Ok []                                (* 1067-1069 *)
  | i0 :: _ =>
      match kind with
      | None => Ok ind
      | Some k =>
          if string_in k ["du"; "all"] then Ok ind
          else if String.eqb k "d" then        (* 1072-1074 *)
            let* s := geti xn (i0 + 1) in
            Ok (step2 (if s >? 0 then 1 else 0) ind)
          else if String.eqb k "u" then        (* 1075-1077 *)
            let* s := geti xn (i0 + 1) in
            Ok (step2 (if s <? 0 then 1 else 0) ind)
          else if string_in k ["dw"; "uw"; "tw"; "cw"] then   (* 1078-1093 *)
            let* a := geti xn i0 in
            let* b := geti xn (i0 + 1) in
            let first_is_down := a >? b in
            let ind1 := if xorb first_is_down (string_in k ["dw"; "tw"])
                        then tl ind else ind in
            let is_odd := Nat.odd (length ind1) in
            Ok (if xorb is_odd (string_in k ["dw"; "uw"])
                then removelast ind1 else ind1)
          else Err ValueError                  (* 1094-1096 *)
      end
  end.

(* ---- src/wafo/misc.py:1100-1135  findextrema ----------------------------- *)
Definition findextrema (m : impl) (x : list Z) : res (list nat) :=
  let* ind := findcross m (diff x) 0 None in
  Ok (map S ind).

(* ---- src/wafo/misc.py:1399-1505  findtp ---------------------------------- *)
(* The branch h > 0 (lines 1488-1490) is modelled in RfcModel.v; this is the
   function for h <= 0.  `neg` tells whether h < 0.  The result is None (Python
   None, line 1467) or an index array. *)
Definition findtp_core (m : impl) (x : list Z) (kind : option string)
  : res (option (list nat)) :=
  let n := length x in
  let* ind := findextrema m x in
  match ind with
  | i0 :: i1 :: _ =>
      let* x0 := geti x i0 in
      let* x1 := geti x i1 in
      let astm := match kind with Some k => String.eqb k "astm" | None => false end in
      if astm then
        if Nat.eqb i0 0 then Ok (Some (ind ++ [(n - 1)%nat]))%list
        else Ok (Some (0%nat :: ind ++ [(n - 1)%nat]))%list
      else if x0 >? x1 then Ok (Some (0%nat :: ind ++ [(n - 1)%nat]))%list
      else Ok (Some (ind ++ [(n - 1)%nat]))%list
  | _ => Ok None                               (* 1466-1467 *)
  end.

(* lines 1492-1504 *)
Definition findtp_wave (x : list Z) (kind : option string) (ind : list nat)
  : res (list nat) :=
  match kind with
  | Some k =>
      if string_in k ["mw"; "Mw"] then
        let* i0 := geti ind 0 in
        let* i1 := geti ind 1 in
        let* x0 := geti x i0 in
        let* x1 := geti x i1 in
        let first_is_max := x0 >? x1 in
        let ind1 := if xorb first_is_max (String.eqb k "Mw") then tl ind else ind in
        Ok (if Nat.odd (length ind1) then ind1 else removelast ind1)
      else Ok ind
  | None => Ok ind
  end.

Definition findtp0 (m : impl) (x : list Z) (neg : bool) (kind : option string)
  : res (option (list nat)) :=
  if neg then Ok (Some (seq 0 (length x)))     (* 1461-1462 *)
  else
    let* r := findtp_core m x kind in
    match r with
    | None => Ok None
    | Some ind => let* ind' := findtp_wave x kind ind in Ok (Some ind')
    end.

(* ---- src/wafo/misc.py:1508-1604  findtc ---------------------------------- *)
(* x[v_ind[j]+1 : v_ind[j+1]+1] reduced with argmin or argmax *)
Definition stretch (x : list Z) (vi : list nat) (j : nat) : res (list Z) :=
  let* a := geti vi j in
  let* b := geti vi (S j) in
  Ok (slice (S a) (S b) x).

Definition arg_of (is_min : bool) (l : list Z) : res nat :=
  if is_min then argmin l else argmax l.

(* lines 1593-1598: for i in range(n_tc) fills ind[2i] and ind[2i+1] *)
Fixpoint tc_loop (x : list Z) (vi : list nat) (down : bool) (is : list nat)
  : res (list nat) :=
  match is with
  | [] => Ok []
  | i :: is' =>
      let j := (2 * i)%nat in
      let* s1 := stretch x vi j in
      let* a1 := arg_of down s1 in
      let* s2 := stretch x vi (S j) in
      let* a2 := arg_of (negb down) s2 in
      let* r := tc_loop x vi down is' in
      Ok (a1 :: a2 :: r)
  end.

(* lines 1570-1604 with v given (line 1571-1572 replaces v = None by the mean) *)
Definition findtc (m : impl) (x : list Z) (v : Z) (kind : option string)
  : res (list nat * list nat) :=
  let* vi := findcross m x v kind in
  let nc := length vi in
  if (nc <=? 2)%nat then Ok ([], [])           (* 1576-1578 *)
  else
    let ntc := ((nc - 1 - (if Nat.even nc then 1 else 0)) / 2)%nat in
    let* c0 := geti vi 0 in
    let* xa := geti x c0 in
    let* xb := geti x (S c0) in
    let down := xa >? xb in
    let* ind := tc_loop x vi down (seq 0 ntc) in
    (* 1585: zeros(n_c - 1); 1600-1602: the last entry when n_c is even *)
    let last_ok := match kind with
                   | None => true
                   | Some k => string_in k ["tw"; "cw"]
                   end in
    let* tail :=
      if (2 * ntc + 1 <? nc)%nat then
        if last_ok then
          let* s := stretch x vi (nc - 2) in
          let* a := arg_of down s in Ok [a]
        else Ok [0%nat]
      else Ok [] in
    let full := (ind ++ tail)%list in
    Ok (map (fun p => (fst p + snd p + 1)%nat) (combine (removelast vi) full), vi).
