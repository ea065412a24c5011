(* Model of TimeSeries.wave_parameters and TimeSeries.wave_height_steepness (src/wafo/objects.py:1745-1955) with rate=1, so that _interpolate returns the
   stored values.  The values of the series are integers (multiples of a unit, as in CrossModel), the instants are real numbers. *)
From Coq Require Import Reals List ZArith Bool String.
From Verif Require Import Base CrossModel EcrossModel FilterModel.
Import ListNotations.
Local Open Scope list_scope.
Local Open Scope R_scope.

(* 1334-1354 sampling_period; the warning is left out *)
Definition sampling_period (t_vec : list R) : res R :=
  let* t0 := geti t_vec 0 in
  let* _ := geti t_vec 1 in
  Ok ((last t_vec 0 - t0) / INR (List.length t_vec - 1)).
(* l[ind] with an array of indices *)
Fixpoint pick {A} (l : list A) (ind : list nat) : res (list A) :=
  match ind with
  | [] => Ok []
  | i :: ind' => let* a := geti l i in let* r := pick l ind' in Ok (a :: r)
  end.
(* an operation on two arrays of the same length.  Arrays with one element, which numpy repeats, are left out: the lengths are always the same here *)
Definition both {A B C} (op : A -> B -> C) (a : list A) (b : list B) : res (list C) :=
  if (List.length a =? List.length b)%nat then Ok (map (fun p => op (fst p) (snd p)) (combine a b)) else Err ValueError.
(* T[(T == 0)] = dT *)
Definition no_zero (dT : R) (T : list R) : list R := map (fun a => if Req_EM_T a 0 then dT else a) T.

Record wpar := { Ac : list R; At : list R; Hu : list R; Hd : list R; Tu : list R; Td : list R; Tcf : list R; Tcb : list R }.
(* 1802-1820 *)
Definition wave_parameters (m : impl) (x : list Z) (t : list R) : res wpar :=
  let* dT := sampling_period t in
  let xi := map IZR x in
  let* tz := findtc m x 0 (Some "tw"%string) in
  let tc_ind := fst tz in let z_ind := snd tz in
  let* tc_a := pick xi tc_ind in
  let* tc_t := pick t tc_ind in
  let ac := step2 1 tc_a in
  let a_t := map Ropp (step2 0 tc_a) in
  let* hu := both Rplus ac (tl a_t) in
  let* hd := both Rplus ac (removelast a_t) in
  let* tu := ecross t xi (step2 1 z_ind) 0 in
  let* td := ecross t xi (step2 0 z_ind) 0 in
  let* tcf := both Rminus (step2 1 tc_t) (removelast tu) in
  let* tcb := both Rminus (tl td) (step2 1 tc_t) in
  Ok {| Ac := ac; At := a_t; Hu := hu; Hd := hd; Tu := diffR tu; Td := diffR td; Tcf := no_zero dT tcf; Tcb := no_zero dT tcb |}.

(* the argument kind: a name or an integer *)
Inductive kind := Name (s : string) | Num (k : Z).
(* 1903-1904: an unknown name is compared with 0 in line 1905, which is a TypeError *)
Definition defnr_of (k : kind) : res Z :=
  match k with
  | Num z => Ok z
  | Name s =>
      if String.eqb s "maxVcfVcb" then Ok 0%Z else if String.eqb s "Vcf" then Ok 1%Z else if String.eqb s "Vcb" then Ok (-1)%Z
      else if String.eqb s "Scf" then Ok 2%Z else if String.eqb s "Scb" then Ok (-2)%Z else if String.eqb s "StHd" then Ok 3%Z
      else if String.eqb s "StHu" then Ok (-3)%Z else Err TypeError
  end.
(* 1891-1955; g is the given acceleration or gravity() *)
Definition wave_height_steepness (m : impl) (x : list Z) (t : list R) (k : kind) (g : R) : res (list R * list R) :=
  let* dT := sampling_period t in
  let xi := map IZR x in
  let* tz := findtc m x 0 (Some "tw"%string) in
  let tc_ind := fst tz in let z_ind := snd tz in
  let* tc_a := pick xi tc_ind in
  let* tc_t := pick t tc_ind in
  let ac := step2 1 tc_a in
  let a_t := map Ropp (step2 0 tc_a) in
  let* defnr := defnr_of k in
  let* tcf :=
    if ((0 <=? defnr) && (defnr <=? 2))%Z then
      let* tu := ecross t xi (step2 1 (removelast z_ind)) 0 in
      let* d := both Rminus (step2 1 tc_t) tu in Ok (no_zero dT d)
    else Ok [] in
  let* tcb :=
    if ((-2 <=? defnr) && (defnr <=? 0))%Z then
      let* td := ecross t xi (step2 2 z_ind) 0 in
      let* d := both Rminus td (step2 1 tc_t) in Ok (no_zero dT d)
    else Ok [] in
  if (defnr =? 0)%Z then
    let* hu := both Rplus ac (tl a_t) in
    let* hd := both Rplus ac (removelast a_t) in
    let* T := both (fun a b => if Rlt_dec a b then a else b) tcf tcb in
    let* st := both Rdiv ac T in
    let* mask := both (fun a b => if Rlt_dec a b then true else false) tcf tcb in
    let* dn_up := both (fun a b => (a, b)) hd hu in
    let* H := both (fun (q : bool) p => if q then fst p else snd p) mask dn_up in
    Ok (st, H)
  else if (defnr =? 1)%Z then
    let* H := both Rplus ac (removelast a_t) in
    let* st := both Rdiv ac tcf in Ok (st, H)
  else if (defnr =? -1)%Z then
    let* H := both Rplus ac (tl a_t) in
    let* st := both Rdiv ac tcb in Ok (st, H)
  else if (defnr =? 2)%Z then
    let* H := both Rplus ac (removelast a_t) in
    let* td := ecross t xi (step2 0 z_ind) 0 in
    let* q := both (fun a b => 2 * PI * a / b) ac (diffR td) in
    let* st := both (fun a b => a / b / g) q tcf in Ok (st, H)
  else if (defnr =? -2)%Z then
    let* H := both Rplus ac (tl a_t) in
    let* tu := ecross t xi (step2 1 z_ind) 0 in
    let* q := both (fun a b => 2 * PI * a / b) ac (diffR tu) in
    let* st := both (fun a b => a / b / g) q tcb in Ok (st, H)
  else if (defnr =? 3)%Z then
    let* H := both Rplus ac (removelast a_t) in
    let* td := ecross t xi (step2 0 z_ind) 0 in
    let* st := both (fun a b => 2 * PI * a / b ^ 2 / g) H (diffR td) in Ok (st, H)
  else if (defnr =? -3)%Z then
    let* H := both Rplus ac (tl a_t) in
    let* tu := ecross t xi (step2 1 z_ind) 0 in
    let* st := both (fun a b => 2 * PI * a / b ^ 2 / g) H (diffR tu) in Ok (st, H)
  else Err UnboundLocal.
