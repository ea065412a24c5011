(* Model of the rainflow filters:
   src/wafo/_misc_numba.py:80-248, src/wafo/misc.py:1265-1505,
   source/c_library/c_functions.c:16-115.  Samples are integers. *)
From Coq Require Import String.
From Verif Require Import Base CrossModel.
Local Open Scope list_scope.
Local Open Scope Z_scope.

(* ---- _misc_numba.py:80-142  _make_findrfc(cmp1, cmp2) ----------------------- *)
(* t is kept reversed: rt = [t[j]; ...; t[0]].  The buffer t has cap entries
   (229-247: cap = len(y)). *)
Definition record (cap : nat) (rt : list nat) (t0 : nat) : res (list nat) :=
  if (List.length rt <? cap)%nat then Ok (t0 :: rt) else Err MemoryError.

(* lines 97-131, the loop `for ti in range(1, n)`, running over y[ti:] *)
Fixpoint rf_loop (cmp1 cmp2 : Z -> Z -> bool) (h : Z) (cap : nat)
    (ti : nat) (ys : list Z) (t0 : nat) (y0 z0 : Z) (rt : list nat)
  : res (nat * Z * list nat) :=
  match ys with
  | [] => Ok (t0, y0, rt)
  | yi :: ys' =>
      let fpi := y0 + h in
      let fmi := y0 - h in
      let* r :=
        if z0 =? 0 then                                        (* 102-109 *)
          let z1 := if cmp1 yi fmi then -1 else if cmp1 fpi yi then 1 else 0 in
          Ok (z1, if z1 =? 0 then (t0, y0) else (ti, yi))
        else
          let* z1 :=                                            (* 111-119 *)
            if ((z0 =? 1) && cmp1 yi fmi) || ((z0 =? -1) && cmp2 yi fpi) then Ok (-1)
            else if ((z0 =? 1) && cmp2 fmi yi) || ((z0 =? -1) && cmp1 fpi yi) then Ok 1
            else Err ValueError in
          Ok (z1,                                               (* 121-127 *)
              if negb (z1 =? z0) then (ti, yi)
              else if z1 =? -1 then (if y0 <? yi then (t0, y0) else (ti, yi))
              else (if y0 >? yi then (t0, y0) else (ti, yi))) in
      let '(z1, (t1, y1)) := r in
      let* rt1 := if Z.abs (z0 - z1) =? 2 then record cap rt t0 else Ok rt in  (* 129-132 *)
      rf_loop cmp1 cmp2 h cap (S ti) ys' t1 y1 z1 rt1           (* 134-135 *)
  end.

(* lines 90-141 *)
Definition make_findrfc (cmp1 cmp2 : Z -> Z -> bool) (y : list Z) (h : Z) : res (list nat) :=
  let n := List.length y in
  let* y00 := getm y 0 in                                       (* 95 *)
  let* r := rf_loop cmp1 cmp2 h n 1 (tl y) 0 y00 0 [0%nat] in
  let '(t0, y0, rt) := r in
  let* yt := getm y (hd 0%nat rt) in                             (* 138: y[t[j]] *)
  let* rt1 := if cmp2 h (Z.abs (y0 - yt)) then record n rt t0 else Ok rt in
  Ok (rev rt1).

(* lines 145-156 *)
Definition findrfc_le := make_findrfc Z.leb Z.ltb.
Definition findrfc_lt := make_findrfc Z.ltb Z.leb.

(* ---- _misc_numba.py:159-226  _findrfc ---------------------------------------- *)
(* rd i is the outcome of reading y[i]; the checked instance is getm y. *)
(* lines 175-181: while j >= 0 and y[2j+1] <= y[2i+1]; k = j + 1 *)
Fixpoint back (rd : nat -> res Z) (k : nat) (yi : Z) (xminus : Z) (tmi : nat) : res (Z * nat) :=
  match k with
  | O => Ok (xminus, tmi)
  | S j =>
      let* yj1 := rd (2 * j + 1)%nat in
      if yj1 <=? yi then
        let* yj := rd (2 * j)%nat in
        if yj <? xminus then back rd j yi yj (2 * j)%nat
        else back rd j yi xminus tmi
      else Ok (xminus, tmi)
  end.

(* lines 190-197; js = [j .. nc-1].  The flag tells whether the loop was left by
   `break` (true) or by exhausting its condition (false, the else clause). *)
Fixpoint fwd (rd : nat -> res Z) (js : list nat) (yi : Z) (xplus : Z) (tpl : nat) : res (bool * Z * nat) :=
  match js with
  | [] => Ok (false, xplus, tpl)
  | j :: js' =>
      let* yj1 := rd (2 * j + 1)%nat in
      if yi <=? yj1 then Ok (true, xplus, tpl)
      else
        let* yj2 := rd (2 * j + 2)%nat in
        if yj2 <=? xplus then fwd rd js' yi yj2 (2 * j + 2)%nat
        else fwd rd js' yi xplus tpl
  end.

(* the body of `for i in range(nc)`, lines 168-222: the indices stored for i *)
Definition rfc_one (rd : nat -> res Z) (nc : nat) (h : Z) (i : nat) : res (list nat) :=
  let* xm0 := rd (2 * i)%nat in
  let* xplus := rd (2 * i + 2)%nat in
  let* yi := rd (2 * i + 1)%nat in
  let* b := back rd i yi xm0 (2 * i)%nat in
  let '(xminus, tmi) := b in
  let minus_pair := if h <=? yi - xminus then [tmi; (2 * i + 1)%nat] else [] in
  if xplus <=? xminus then Ok minus_pair                          (* 182-187 *)
  else
    let* f := fwd rd (seq (i + 1) (nc - (i + 1))) yi xplus (2 * i + 2)%nat in
    let '(broke, xp, tpl) := f in
    if negb broke then Ok minus_pair                              (* 198-205 *)
    else if xp <=? xminus then Ok minus_pair                      (* 209-214 *)
    else if h <=? yi - xp then Ok [(2 * i + 1)%nat; tpl] else Ok [].  (* 215-219 *)

Fixpoint rfc_loop (rd : nat -> res Z) (nc : nat) (h : Z) (is : list nat) : res (list nat) :=
  match is with
  | [] => Ok []
  | i :: is' => let* a := rfc_one rd nc h i in let* r := rfc_loop rd nc h is' in Ok (a ++ r)
  end.

(* The writes ind[ix] go to a buffer of len(y) entries; each i writes at most two,
   so ix <= 2*nc <= len(y): no write is modelled as failing.
   mem is the memory behind the array y: neither the numba-compiled nor the C
   routine checks its indices.  mem = [] makes every access outside y an error. *)
Definition findrfc2_rd (rd : nat -> res Z) (n : nat) (h : Z) : res (list nat) :=
  rfc_loop rd (n / 2) h (seq 0 (n / 2)).
Definition findrfc2_mem (mem y : list Z) (h : Z) : res (list nat) :=
  findrfc2_rd (getm (y ++ mem)) (List.length y) h.
Definition findrfc2 (y : list Z) (h : Z) : res (list nat) :=
  findrfc2_rd (getm y) (List.length y) h.

(* ---- _misc_numba.py:229-248  findrfc ----------------------------------------- *)
Definition nb_findrfc_mem (mem y : list Z) (h : Z) (method : nat) : res (list nat) :=
  match method with
  | 0%nat => findrfc_le y h
  | 1%nat => findrfc_lt y h
  | 2%nat => findrfc2_mem mem y h
  | _ => Err IndexError
  end.
Definition nb_findrfc (y : list Z) (h : Z) (method : nat) : res (list nat) :=
  match method with
  | 0%nat => findrfc_le y h
  | 1%nat => findrfc_lt y h
  | 2%nat => findrfc2 y h
  | _ => Err IndexError
  end.

(* ---- c_functions.c:16-115  findrfc -------------------------------------------- *)
(* Lines 20-29 choose the start; the loop 48-111 is the same text as the numba
   loop with every time shifted by Tstart.  Result: info[0] = -1 is None. *)
Definition c_findrfc (mem y1 : list Z) (hmin : Z) : res (option (list nat)) :=
  let n := List.length y1 in
  let* a := getm (y1 ++ mem) 0 in
  let* b := getm (y1 ++ mem) 1 in
  let '(y, NC, Tstart) := if a >? b then (tl (y1 ++ mem), ((n - 1) / 2)%nat, 1%nat)
                          else (y1 ++ mem, (n / 2)%nat, 0%nat) in
  if (NC <? 1)%nat then Ok (Some [])                               (* 31-33 *)
  else
    let* y0 := getm y 0 in
    let* y1' := getm y 1 in
    let* y2 := getm y 2 in
    if (y0 >? y1') && (y1' >? y2) then Ok None                     (* 36-39 *)
    else if (y0 <? y1') && (y1' <? y2) then Ok None                (* 40-43 *)
    else
      let* r := rfc_loop (getm y) NC hmin (seq 0 NC) in
      Ok (Some (map (fun i => (i + Tstart)%nat) r)).

(* ---- misc.py:1265-1344  findrfc -------------------------------------------------- *)
(* np.sort of an index array *)
Fixpoint insert_nat (a : nat) (l : list nat) : list nat :=
  match l with
  | [] => [a]
  | b :: l' => if (a <=? b)%nat then a :: l else b :: insert_nat a l'
  end.
Fixpoint sort_nat (l : list nat) : list nat :=
  match l with [] => [] | a :: l' => insert_nat a (sort_nat l') end.

(* method: None is 'clib' with the compiled C library present; Some k is the
   integer method (a string without clib means 2, lines 1338-1339) *)
Definition findrfc (mem tp : list Z) (h : Z) (method : option nat) : res (list nat) :=
  let* a := geti tp 0 in
  let* b := geti tp 1 in
  let t_start := if a >? b then 1%nat else 0%nat in                 (* 1322 *)
  let y := skipn t_start tp in
  if (List.length y / 2 <? 1)%nat then Ok []                        (* 1327-1328 *)
  else
    let* y0 := geti y 0 in
    let* y1 := geti y 1 in
    (* 1330-1333: y[2] is only evaluated after y[0] > y[1] or y[0] < y[1] *)
    let* bad :=
      (if y0 >? y1 then let* y2 := geti y 2 in Ok (y1 >? y2)
       else if y0 <? y1 then let* y2 := geti y 2 in Ok (y1 <? y2)
       else Ok false) in
    if (bad : bool) then Ok []
    else
      let* ind := match method with
                  | None => let* r := c_findrfc mem y h in
                            match r with
                            | Some l => Ok l
                            (* ix = -1: ind[:-1] of a buffer C never filled *)
                            | None => Err MemoryError
                            end
                  | Some k => nb_findrfc_mem mem y h k
                  end in
      Ok (map (fun i => (i + t_start)%nat) (sort_nat ind)).

(* ---- misc.py:1347-1396  rfcfilter -------------------------------------------------- *)
Definition rfcfilter (x : list Z) (h : Z) (method : nat) : res (list Z) :=
  let* ix := nb_findrfc x h method in
  take_at x ix.

(* ---- misc.py:1399-1505  findtp, all branches ---------------------------------------- *)
Definition findtp (mem : list Z) (m : impl) (method : option nat) (x : list Z) (h : Z) (kind : option string)
  : res (option (list nat)) :=
  if h <? 0 then Ok (Some (seq 0 (List.length x)))                   (* 1461-1462 *)
  else
    let* r := findtp_core m x kind in
    match r with
    | None => Ok None
    | Some ind =>
        let* ind1 :=
          if h >? 0 then                                              (* 1488-1490 *)
            let* xi := take_at x ind in
            let* i1 := findrfc mem xi h method in
            take_at ind i1
          else Ok ind in
        let* ind' := findtp_wave x kind ind1 in
        Ok (Some ind')
    end.
