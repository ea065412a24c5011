(* Model of return periods, extremal index, declustering time, empirical distribution, mean residual life and
   dispersion index (src/wafo/stats/core.py) over the reals.  nan and inf are values where the code produces them on
   purpose; plotting, labels and workspaces are not modelled. *)
From Coq Require Import Reals ZArith.
From Verif Require Import Base FilterModel GridModel KdeModel.
Local Open Scope R_scope.

Inductive xr := Fin (r : R) | Inf | NaN.
(* what np.broadcast_arrays(period, numevents_per_unit) and the product are: 0-d (both scalars), an integer array
   (both of integer type) or a floating-point array *)
Inductive kind := ZeroD | IntArray | FloatArray.

(* core.py:494-499 one entry of the floating-point result of returnperiod2sf; inf * npu = inf for npu > 0 *)
Definition sf_entry (t : xr) (npu : R) : xr :=
  if Rle_dec npu 0 then NaN
  else match t with
       | Fin t => if Rlt_dec (t * npu) 1 then NaN else Fin (1 / (t * npu))
       | Inf => Fin 0
       | NaN => NaN
       end.
(* core.py:533-538 one entry of sf2returnperiod *)
Definition period_entry (q npu : R) : xr :=
  if Rlt_dec npu 0 then NaN else if Rlt_dec q 0 then NaN else if Rle_dec 1 q then NaN
  else if Req_EM_T (npu * q) 0 then Inf else Fin (1 / (npu * q)).
(* core.py:464-499; the product of 0-d arrays is a scalar, which does not support item assignment; storing nan into an
   integer array raises whatever the mask is, because the value is converted first *)
Definition returnperiod2sf (k : kind) (args : list (xr * R)) : res (list xr) :=
  match k with
  | ZeroD => Err TypeError
  | IntArray => Err ValueError
  | FloatArray => Ok (map (fun p => sf_entry (fst p) (snd p)) args)
  end.
(* core.py:502-538 *)
Definition sf2returnperiod (k : kind) (args : list (R * R)) : res (list xr) :=
  match k with
  | ZeroD => Err TypeError
  | IntArray => Err ValueError
  | FloatArray => Ok (map (fun p => period_entry (fst p) (snd p)) args)
  end.

(* np.mean *)
Definition mean (l : list R) : R := npsum l / INR (List.length l).
(* core.py:678-698 *)
Definition interexceedance_times (t : list R) : list R := diffR (sortR t).
(* core.py:744-753; t.max() of an empty array raises *)
Definition extremal_idx (t : list R) : res R :=
  match t with
  | [] => Err ValueError
  | _ => let tmax := maxR t in
    if Rle_dec tmax 1 then Ok 0
    else if Rle_dec tmax 2 then Ok (Rmin 1 (2 * mean t ^ 2 / mean (map (fun v => v ^ 2) t)))
    else Ok (Rmin 1 (2 * mean (map (fun v => v - 1) t) ^ 2 / mean (map (fun v => (v - 1) * (v - 2)) t)))
  end.
(* core.py:661-675; None is the empty array *)
Definition declustering_time (t : list R) : res (option R) :=
  let nt := List.length t in
  if (nt <? 2)%nat then Ok None
  else
    let ti := interexceedance_times t in
    let* ei := extremal_idx ti in
    if Req_EM_T ei 1 then Ok (Some (minR ti))
    else
      let i := Int_part (INR nt * ei) in
      let sti := map Ropp (sortR (map Ropp ti)) in
      let* tc := getz sti (Z.min i (Z.of_nat nt - 2)) in
      Ok (Some tc).

(* core.py:62-96 edf: the plotting positions and the sorted data *)
Definition edf (x : list R) (method : Z) : list R * list R :=
  let z := sortR x in
  let n := INR (List.length z) in
  let pos k := if Z.eqb method 1 then (INR k - 1 / 2) / n else if Z.eqb method 3 then INR k / n else INR k / (n + 1) in
  (map pos (seq 1 (List.length z)), z).
(* core.py:99-133 edfcnd; z.min() of an empty array raises *)
Definition edfcnd (x : list R) (c : option R) (method : Z) : res (list R * list R) :=
  let* c := match c with
            | Some c => Ok c
            | None => match x with [] => Err ValueError | _ => Ok (IZR (Int_part (Rmin (minR x) 0))) end
            end in
  Ok (edf (filter (fun z => if Rle_dec c z then true else false) x) method).

(* core.py:143-148 *)
Definition check_umin_umax (data : list R) (umin umax : option R) (nmin : nat) : res (R * R) :=
  let sd := sortR data in
  let* sdmax := getz sd (- Z.of_nat nmin) in
  let* sdmin := getz sd 0 in
  Ok (match umin with None => sdmin | Some u => Rmax u sdmin end, match umax with None => sdmax | Some u => Rmin u sdmax end).
(* core.py:217-228 reslife: mean excess and number of exceedances for each threshold; None is nan (mean of nothing) *)
Definition mean_excess (data : list R) (tresh : R) : option R * nat :=
  let e := map (fun v => v - tresh) (filter (fun v => if Rlt_dec tresh v then true else false) data) in
  (match e with [] => None | _ => Some (mean e) end, List.length e).
Definition reslife (data u : list R) : list (option R * nat) := map (mean_excess data) u.
(* core.py:208-213 the default thresholds *)
Definition reslife_default (data : list R) (nmin : nat) : res (list R) :=
  let n := List.length data in
  let nmin := Nat.max nmin 1 in
  let* (umin, umax) := check_umin_umax data None None nmin in
  Ok (linspace umin umax (Nat.min (n - nmin) 100)).

(* np.var of an array *)
Definition var (l : list R) : R := mean (map (fun v => (v - mean l) ^ 2) l).
Definition b2R (b : bool) : R := if b then 1 else 0.
(* core.py:345-376 dispersion_idx: block numbers t1 and, for one threshold, the counts per block, their number and the index;
   tb > 0 *)
Definition block_numbers (t : list R) (tb : R) : list Z := map (fun v => Int_part ((v - minR t) / tb)) t.
Definition zmax (l : list Z) : Z := match l with [] => 0%Z | a :: l' => fold_right Z.max a l' end.
Definition zmin (l : list Z) : Z := match l with [] => 0%Z | a :: l' => fold_right Z.min a l' end.
Definition block_counts (data : list R) (t1 : list Z) (M : nat) (tresh : R) : list R :=
  map (fun block => npsum (map (fun p => b2R (if Z.eqb (snd p) (Z.of_nat block) then if Rlt_dec tresh (fst p) then true else false else false)) (combine data t1))) (seq 0 M).
Definition dispersion (data t : list R) (tb tresh : R) : R :=
  let t1 := block_numbers t tb in
  let M := Z.to_nat (zmax t1 - zmin t1 + 1) in
  let lambda := npsum (map (fun d => b2R (if Rlt_dec tresh d then true else false)) data) / INR M in
  var (block_counts data t1 M tresh) / lambda.
