(* Model of TurningPoints.cycle_pairs, CyclePairs.level_crossings,
   CyclePairs.cycle_matrix and TimeSeries.wave_periods:
   src/wafo/objects.py:629-1236, 1955-2132.  Samples are integers. *)
From Coq Require Import String Reals.
From Verif Require Import Base CrossModel RfcModel EcrossModel.
Local Open Scope string_scope.
Local Open Scope list_scope.
Local Open Scope Z_scope.

(* ---- objects.py:1175-1236  TurningPoints.cycle_pairs --------------------------- *)
(* Result: (data, args) of the CyclePairs object, i.e. (maxima M, minima m).
   `kind` is reduced to the test kind.lower().startswith('min2max'). *)
Definition pairs_of (data : list Z) (min2max : bool) : res (list Z * list Z) :=
  let* d0 := geti data 0 in
  let* d1 := geti data 1 in
  let n := List.length data in
  let '(im, iM) := if d0 >? d1 then (1, 0)%nat else (0, 1)%nat in           (* 1219-1224 *)
  if min2max then
    Ok (every2 (skipn (im + 1) data), every2 (skipn im (firstn (n - 1) data)))  (* 1227-1229 *)
  else
    Ok (every2 (skipn iM (firstn (n - 1) data)), every2 (skipn (iM + 1) data)). (* 1230-1233 *)

Definition cycle_pairs (mem : list Z) (data : list Z) (h : Z) (min2max : bool) (method : option nat)
  : res (list Z * list Z) :=
  if h >? 0 then                                                             (* 1213-1215 *)
    let* ind := findrfc mem data h method in
    let* d := take_at data ind in
    pairs_of d min2max
  else pairs_of data min2max.

(* ---- objects.py:723-732  get_minima_and_maxima ---------------------------------- *)
(* cycles are (arg, data) pairs; the result is a list of (m, M) pairs *)
Definition minima_and_maxima (cp : list (Z * Z)) : list (Z * Z) :=
  let le := filter (fun c => fst c <=? snd c) cp in
  match le with
  | [] => map (fun c => (snd c, fst c)) (filter (fun c => fst c >=? snd c) cp)
  | _ => le
  end.

(* ---- objects.py:734-826  level_crossings ------------------------------------------ *)
(* a column of `extremes`: value, +1 for a minimum / -1 for a maximum, number of
   maxima, number of minima *)
Record ext := Ext { e_val : Z; e_step : Z; e_max : Z; e_min : Z }.

(* extremes[0].argsort(): only the order of the values matters below, because
   columns with equal values are added up *)
Fixpoint insert_ext (a : ext) (l : list ext) : list ext :=
  match l with
  | [] => [a]
  | b :: l' => if e_val a <=? e_val b then a :: l else b :: insert_ext a l'
  end.
Fixpoint sort_ext (l : list ext) : list ext :=
  match l with [] => [] | a :: l' => insert_ext a (sort_ext l') end.

(* lines 791-799; cur = extr[:, ii] *)
Fixpoint merge_ext (cur : ext) (l : list ext) : list ext :=
  match l with
  | [] => [cur]
  | e :: l' =>
      if e_val e =? e_val cur then
        merge_ext (Ext (e_val cur) (e_step cur + e_step e) (e_max cur + e_max e)
                       (e_min cur + e_min e)) l'
      else cur :: merge_ext e l'
  end.

(* position of the first largest value: ndarray.argmax() *)
Fixpoint argmax_from (i : nat) (best : nat) (bv : Z) (l : list Z) : nat :=
  match l with
  | [] => best
  | v :: l' => if v >? bv then argmax_from (S i) i v l' else argmax_from (S i) best bv l'
  end.
Definition argmaxZ (l : list Z) : nat :=
  match l with [] => 0 | v :: l' => argmax_from 1 0 v l' end.

Fixpoint cumsum (s : Z) (l : list Z) : list Z :=
  match l with [] => [] | a :: l' => (s + a) :: cumsum (s + a) l' end.
Fixpoint zipZ (f : Z -> Z -> Z) (a b : list Z) : list Z :=
  match a, b with x :: a', y :: b' => f x y :: zipZ f a' b' | _, _ => [] end.

(* dcount[nx-1] = dcount[nx-2]; for nx = 1 the index -1 is the entry itself *)
Fixpoint repeat_last (l : list Z) : list Z :=
  match l with
  | [] => []
  | [a] => [a]
  | [a; _] => [a; a]
  | a :: l' => a :: repeat_last l'
  end.

Inductive lc_kind := KInt (k : Z) | KStr (s : string).

(* line 774: dict(u=0, uM=1, umM=2, um=3).get(kind, kind) *)
Definition lc_defnr (k : lc_kind) : option Z :=
  match k with
  | KInt z => Some z
  | KStr s => if String.eqb s "u" then Some 0 else if String.eqb s "uM" then Some 1
              else if String.eqb s "umM" then Some 2 else if String.eqb s "um" then Some 3
              else None
  end.

Definition level_crossings (cp : list (Z * Z)) (kind : lc_kind) : res (list Z * list Z) :=
  match lc_defnr kind with
  | None => Err ValueError
  | Some d =>
      if (d =? 1) || (d =? 2) || (d =? 3) || (d =? 4) then                   (* 775-777 *)
        let mM := minima_and_maxima cp in
        let maxima := map (fun c => Ext (snd c) (-1) 1 0) mM in
        let minima := map (fun c => Ext (fst c) 1 0 1) mM in
        match sort_ext (maxima ++ minima) with
        | [] => Err IndexError                                                 (* 792 *)
        | e0 :: es =>
            let merged := merge_ext e0 es in
            let n := S (List.length es) in
            let extr := merged ++ repeat (Ext 0 0 0 0) (n - List.length merged) in
            let nx := S (argmaxZ (map e_val extr)) in                           (* 801 *)
            let ex := firstn nx extr in
            let cum := cumsum 0 (map e_step ex) in
            let count :=
              if d =? 1 then zipZ Z.sub cum (map e_min ex)
              else if d =? 2 then zipZ Z.sub (zipZ Z.add cum (map e_max ex)) (map e_min ex)
              else if d =? 3 then zipZ Z.add cum (map e_max ex)
              else repeat_last cum in
            Ok (map e_val ex, count)
        end
      else Err ValueError
  end.

(* ---- objects.py:1018-1080  _discretize_cycle_pairs ------------------------------- *)
(* exact arithmetic: (v - a)/delta + 1 with delta = (b-a)/(n-1) is the fraction
   num/den below, den = b - a > 0.  Rounding of the float division is ignored. *)
Definition clip (lo hi v : Z) : Z := Z.min (Z.max v lo) hi.
Definition fl (num den : Z) : Z := num / den.
Definition ce (num den : Z) : Z := - ((- num) / den).
(* np.round: to the nearest integer, halves to the even one *)
Definition rnd (num den : Z) : Z :=
  let q := num / den in let r := num mod den in
  if 2 * r <? den then q else if den <? 2 * r then q + 1 else if Z.even q then q else q + 1.

(* np.any(ix) on the index array: false for [] and for [0] *)
Definition any_nonzero (ix : list nat) : bool := existsb (fun i => negb (i =? 0)%nat) ix.
Definition bad_index (cp : list (Z * Z)) : list nat :=
  map fst (filter (fun ic => fst (snd ic) >? snd (snd ic)) (combine (seq 0 (List.length cp)) cp)).

Definition disc1 (a b n ddef : Z) (c : Z * Z) : Z * Z :=
  let num v := (v - a) * (n - 1) + (b - a) in let den := b - a in
  if ddef =? 0 then (clip 0 (n - 1) (rnd (num (fst c)) den), clip 0 (n - 1) (rnd (num (snd c)) den))
  else if ddef =? 1 then (clip 0 (n - 2) (fl (num (fst c)) den), clip 1 (n - 1) (ce (num (snd c)) den))
  else (clip 1 (n - 1) (ce (num (fst c)) den), clip 0 (n - 2) (fl (num (snd c)) den)).

Definition swap (c : Z * Z) : Z * Z := (snd c, fst c).

Definition discretize_pairs (cp : list (Z * Z)) (a b n ddef : Z) : res (list (Z * Z)) :=
  let sw := any_nonzero (bad_index cp) in                                       (* 1054-1056 *)
  if (ddef =? 0) || (ddef =? 1) || (ddef =? -1) then
    Ok (map (fun c =>
         if sw && (fst c >? snd c) then swap (disc1 a b n ddef (swap c)) else disc1 a b n ddef c) cp)
  else Err ValueError.

(* ---- objects.py:994-1016  _dcp2cmat: F[i, j] += 1 ---------------------------------- *)
Definition upd (F : Z -> Z -> Z) (i j : Z) : Z -> Z -> Z :=
  fun i' j' => if (i' =? i) && (j' =? j) then F i' j' + 1 else F i' j'.
Fixpoint dcp2cmat (n : Z) (F : Z -> Z -> Z) (l : list (Z * Z)) : res (Z -> Z -> Z) :=
  match l with
  | [] => Ok F
  | (i, j) :: l' =>
      (* numpy accepts -n .. n-1; the discretisation never yields negative indices *)
      if (0 <=? i) && (i <? n) && (0 <=? j) && (j <? n) then dcp2cmat n (upd F i j) l'
      else Err IndexError
  end.

(* ---- objects.py:932-992  cycle_matrix, the counts ---------------------------------- *)
Definition cycle_matrix (cp : list (Z * Z)) (a b n ddef : Z) : res (Z -> Z -> Z) :=
  let* d := discretize_pairs cp a b n ddef in
  dcp2cmat n (fun _ _ => 0) d.

(* ---- objects.py:1973-2005  _get_start_index, _get_step ------------------------------ *)
Definition any_of (s : string) (l : list string) : bool := existsb (String.eqb s) l.
(* `pdef in ('u2c')` is a substring test on the string 'u2c'; for the pdefs that
   reach it (all of length 3) this is equality *)
Definition start_index (pdef : string) (down_first : bool) : res nat :=
  if down_first then
    if any_of pdef ["d2t"; "M2m"; "c2t"; "d2u"; "M2M"; "c2c"; "d2d"; "all"] then Ok 1%nat
    else if any_of pdef ["t2u"; "m2M"; "t2c"; "u2d"; "m2m"; "t2t"; "u2u"] then Ok 2%nat
    else if String.eqb pdef "u2c" then Ok 3%nat
    else if String.eqb pdef "c2d" then Ok 4%nat
    else Err ValueError
  else if any_of pdef ["all"; "u2c"; "m2M"; "t2c"; "u2d"; "m2m"; "t2t"; "u2u"] then Ok 0%nat
  else if any_of pdef ["c2d"; "M2m"; "c2t"; "d2u"; "M2M"; "c2c"; "d2d"] then Ok 1%nat
  else if String.eqb pdef "d2t" then Ok 2%nat
  else if String.eqb pdef "t2u" then Ok 3%nat
  else Err ValueError.
Definition get_step (pdef : string) : nat :=
  if any_of pdef ["d2t"; "t2u"; "u2c"; "c2d"] then 4
  else if String.eqb pdef "all" then 1 else 2.
Definition get_dist (pdef : string) : nat :=
  if any_of pdef ["m2m"; "t2t"; "u2u"; "M2M"; "c2c"; "d2d"] then 2 else 1.

(* index[start:(nn-dist):step] and index[(start+dist):nn:step] as index pairs *)
Fixpoint every (fuel step : nat) (l : list nat) : list nat :=
  match fuel with
  | O => []
  | S f => match l with [] => [] | a :: _ => a :: every f step (skipn step l) end
  end.
Definition slice_step (l : list nat) (a b step : nat) : list nat :=
  let s := slice a b l in every (List.length s) step s.
Definition period_pairs (x : list Z) (index : list nat) (pdef : string)
  : res (list nat * list nat) :=
  let* i0 := geti index 0 in
  let* i1 := geti index 1 in
  let* x0 := geti x i0 in
  let* x1 := geti x i1 in
  let* start := start_index pdef (x0 >? x1) in
  let step := get_step pdef in let dist := get_dist pdef in
  let nn := List.length index in
  Ok (slice_step index start (nn - dist) step, slice_step index (start + dist) nn step).

(* ---- objects.py:2021-2132  wave_periods for pdefs made of minima, maxima, troughs
   and crests ('m2M', 'M2m', 'm2m', 'M2M', 't2c', 'c2t', 't2t', 'c2c', 'all'):
   T = x[index1] - x[index0], lines 2124, 2129, 2131 ------------------------------------ *)
Definition wave_periods_extremes (x : list Z) (index : list nat) (pdef : string) : res (list Z) :=
  let* p := period_pairs x index pdef in
  let* t0 := take_at x (fst p) in
  let* t1 := take_at x (snd p) in
  Ok (zipZ Z.sub t1 t0).

(* ---- objects.py:2021-2132  wave_periods for 'u2u', 'u2d', 'd2u', 'd2d': both ends
   are crossing times, lines 2122, 2127, 2131 --------------------------------------------- *)
Fixpoint zipR (f : R -> R -> R) (a b : list R) : list R :=
  match a, b with x :: a', y :: b' => f x y :: zipR f a' b' | _, _ => [] end.
Definition wave_periods_crossings (t : list R) (x : list Z) (v : Z) (index : list nat) (pdef : string)
  : res (list R) :=
  let* p := period_pairs x index pdef in
  let* t0 := ecross t (map IZR x) (fst p) (IZR v) in
  let* t1 := ecross t (map IZR x) (snd p) (IZR v) in
  Ok (zipR Rminus t1 t0).
