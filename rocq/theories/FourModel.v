(* Model of the Fourier coefficients of sampled signals (src/wafo/misc.py:2832-2926) over exact reals. *)
From Coq Require Import Reals List ZArith.
From Verif Require Import Base PolyModel TransModel.
Import ListNotations.
Local Open Scope R_scope.

(* an array of times: one dimensional, or with one row *)
Inductive times := Flat (t : list R) | Row (t : list R).
Definition values (t : times) : list R := match t with Flat l | Row l => l end.
(* 2896: t[-1] - t[0]; for an array with one row this is an array of zeros *)
Definition default_period (t : times) : res R :=
  match t with Row _ => Ok 0 | Flat [] => Err IndexError | Flat (a :: l) => Ok (last (a :: l) 0 - a) end.
(* 2909-2912, 2914-2915: one coefficient of one row.  For a period of 0 the angles are nan or inf and so is the integral, if there are at
   least two points: None *)
Definition coefficient (f : R -> R) (t : list R) (period : R) (i : nat) (row : list R) : option R :=
  if Req_EM_T period 0 then (match t with _ :: _ :: _ => None | _ => Some (0 / PI) end)
  else Some (trapz (map2 (fun x u => x * f (INR i * (2 * PI * u / period))) row t) t / PI).
(* 2832-2926 fourier with method='trapz': the coefficients and the caller's array t after the call (2900: t.shape = (1, -1)).  x holds rows
   with n values.  Times of another length are taken as an error; numpy would broadcast arrays of one or two times *)
Definition fourier (x : list (list R)) (n : nat) (t : option times) (period : option R) (m : option Z) : res (list (list (option R)) * list (list (option R)) * option times) :=
  let tt := match t with None => Flat (map INR (seq 0 n)) | Some t => t end in
  let m := match m with None => Z.of_nat n | Some m => m end in
  let* T := match period with None => default_period tt | Some p => Ok p end in
  if (m <? 0)%Z then Err ValueError
  else if negb (List.length (values tt) =? n)%nat then Err ValueError
  else if (m =? 0)%Z then Err IndexError
  else
    let ts := values tt in
    let rest := seq 1 (Z.to_nat m - 1) in
    let a := map (fun row => Some (trapz row ts / PI)) x :: map (fun i => map (coefficient cos ts T i) x) rest in
    let b := map (fun _ => Some (0 / PI)) x :: map (fun i => map (coefficient sin ts T i) x) rest in
    Ok (a, b, match t with None => None | Some t => Some (Row (values t)) end).
