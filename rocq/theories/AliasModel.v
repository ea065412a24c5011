(* What edf and edfcnd (src/wafo/stats/core.py:62-133), smoothn (src/wafo/sg_filter/_core.py:276-300, 556-572), CovData1D.simcond
   (src/wafo/covariance/core.py:572-620) and mctp2tc (src/wafo/markov.py:289-440) do to the arrays of the caller.  A call returns its
   result together with the argument as the caller finds it afterwards. *)
From Coq Require Import Reals List ZArith Bool.
From Verif Require Import Base FilterModel KdeModel StatsModel.
Import ListNotations.
Local Open Scope R_scope.

(* atleast_1d and ravel give the memory of the caller for a contiguous vector of floats, and a copy for a list or a tuple *)
Inductive arg (A : Type) := Shared (x : list A) | Copied (x : list A).
Arguments Shared {A} x.
Arguments Copied {A} x.
Definition contents {A} (a : arg A) : list A := match a with Shared x => x | Copied x => x end.
(* the argument after the function has changed the elements of its array to x *)
Definition store {A} (a : arg A) (x : list A) : arg A := match a with Shared _ => Shared x | Copied y => Copied y end.

(* src/wafo/stats/core.py:85-96: z = atleast_1d(x); z.sort() *)
Definition edf_call (a : arg R) (method : Z) : (list R * list R) * arg R := (edf (contents a) method, store a (sortR (contents a))).
(* src/wafo/stats/core.py:124-133: z[c <= z] is a new array *)
Definition edfcnd_call (a : arg R) (c : option R) (method : Z) : res (list R * list R) * arg R :=
  let z := contents a in (edfcnd z c method, a).

(* _core.py:556-572 SmoothNd.__call__ for a vector; None is a number that is not finite.  smooth stands for the iterations, which
   work on the values with 0 for the missing ones, the mask of the finite ones and the weights *)
Definition finite (v : option R) : bool := match v with Some _ => true | None => false end.
Definition weight_ok (w : R * option R) : bool := if finite (snd w) then (if Rle_dec 0 (fst w) then true else false) else true.
Definition smoothn_call (smooth : list R -> list bool -> list R -> list R) (weights : list R) (a : arg (option R)) : res (list (option R)) * arg (option R) :=
  let y := contents a in
  if (List.length y <? 2)%nat then (Ok y, a)
  else if negb (List.length weights =? List.length y)%nat then (Err ValueError, a)
  (* _core.py:401-410 _normalized_weights; a single weight is given as a vector here *)
  else if negb (forallb weight_ok (combine weights y)) then (Err ValueError, a)
  else
    (* 300: self.y[~self.is_finite] = 0 *)
    let y' := map (fun v => match v with Some r => Some r | None => Some 0 end) y in
    (Ok (map Some (smooth (map (fun v => match v with Some r => r | None => 0 end) y) (map finite y) weights)), store a y').

(* covariance/core.py:578-579: x[i_unknown] = nan; indices from the end are left out *)
Fixpoint set_nan (x : list (option R)) (i : nat) : list (option R) :=
  match x, i with
  | [], _ => []
  | _ :: x', O => None :: x'
  | v :: x', S i' => v :: set_nan x' i'
  end.
Definition mark (x : list (option R)) (unknown : option (list nat)) : res (list (option R)) :=
  match unknown with
  | None => Ok x
  | Some l => if forallb (fun i => (i <? List.length x)%nat) l then Ok (fold_left set_nan l x) else Err IndexError
  end.
(* covariance/core.py:572-620 simcond with method='exact'; data are the covariances of the object, num_acf how many of them are used
   (480-488, at least one), finish the linear algebra and the random numbers, prior the sample if nothing is known.  The result comes with
   the observations and the covariances afterwards *)
Definition simcond_call (finish : list R -> list (option R) -> res (list R)) (prior : nat -> list R)
  (data : list R) (num_acf : nat) (xo : arg (option R)) (unknown : option (list nat)) : res (list R) * arg (option R) * list R :=
  match mark (contents xo) unknown with
  | Err e => (Err e, xo, data)
  | Ok x =>
      let missing := List.length (filter (fun v => negb (finite v)) x) in
      if (missing =? 0)%nat then (Ok [], store xo x, data)
      else if (missing =? List.length x)%nat then (Ok (prior missing), store xo x, data)
      else if Rlt_dec (3 / 10 * INR (List.length x)) (INR num_acf) then (finish (firstn num_acf data) x, store xo x, data)
      else
        (* 602: acf[0] = acf[0] * 1.00001; acf is a view of the data of the object *)
        let data' := match data with [] => [] | r0 :: rest => r0 * (100001 / 100000) :: rest end in
        (finish (firstn num_acf data') x, store xo x, data')
  end.

(* markov.py:333-339 _normalize_rows *)
Definition row_sum (r : list R) : R := fold_right Rplus 0 r.
Definition normalize_row (r : list R) : list R := if Req_EM_T (row_sum r) 0 then r else map (fun v => v / row_sum r) r.
(* markov.py:380-440 mctp2tc; f_Mm and f_mM are matrices of floats; rest is the computation of F from the normalised matrix, f_mM and ntc *)
Definition mctp2tc_call (rest : list (list R) -> list (list R) -> nat -> res (list (list R))) (f_Mm : list (list R)) (utc : R) (lo hi : R) (k : nat)
  (f_mM : option (list (list R))) : res (list (list R)) * list (list R) :=
  let f_mM := match f_mM with None => f_Mm | Some f => f end in
  let ntc := List.length (filter (fun u => if Rle_dec utc u then true else false) (linspace lo hi k)) in
  let n := List.length f_Mm in
  if (n <=? ntc)%nat then (Err IndexError, f_Mm)
  else if negb ((1 <? ntc)%nat && (ntc <? k)%nat) then (Err ValueError, f_Mm)
  else let p := map normalize_row f_Mm in (rest p f_mM ntc, p).
