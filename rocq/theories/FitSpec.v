(* What a user means by fixing parameters in a fit. *)
From Coq Require Import Reals String.
From Verif Require Import Base FitModel.
Local Open Scope string_scope.

(* the values given for any of the names *)
Definition given (kw : kwds) (names : list string) : list pyv := flat_map (fun k => match find k kw with Some v => [v] | None => [] end) names.
(* one value other than None was given *)
Definition asked (vs : list pyv) : option pyv := match vs with [Nil] => None | [v] => Some v | _ => None end.
(* the names of the shape parameters, in order: f0, fa and fix_a for the first of them when it is called a *)
Definition three_names (j : nat) (s : string) : list string := ["f" ++ dec j; "f" ++ s; "fix_" ++ s].
Definition all_shape_keys (shapes : list string) : list (list string) := map (fun js => three_names (fst js) (snd js)) (combine (seq 0 (List.length shapes)) shapes).
(* the value each parameter is fixed to, None for a free parameter: the shapes, the location and the scale *)
Definition fixed (shapes : list string) (kw : kwds) : list (option pyv) :=
  (map (fun names => asked (given kw names)) (all_shape_keys shapes) ++ [find "floc" kw; find "fscale" kw])%list.
(* no two parameters share a name, and none of the names is one of the other keywords *)
Definition own_keys : list string := ["floc"; "fscale"; "loc"; "scale"; "method"; "search"; "optimizer"].
Definition legal (shapes : list string) : Prop := NoDup (List.concat (all_shape_keys shapes) ++ own_keys)%list.
(* a parameter vector has the fixed values in their places *)
Definition agrees (fl : list (option pyv)) (full : list pyv) : Prop := forall i v, nth_error fl i = Some (Some v) -> nth_error full i = Some v.
(* the entries in the places of the free parameters *)
Fixpoint free (fl : list (option pyv)) (full : list pyv) : list pyv :=
  match fl, full with
  | Some _ :: fl', _ :: full' => free fl' full'
  | None :: fl', a :: full' => a :: free fl' full'
  | _, _ => []
  end.
Definition n_free (fl : list (option pyv)) : nat := List.length (filter (fun o => match o with None => true | Some _ => false end) fl).
(* where the search starts: what was given by position, then the keywords loc and scale, then the values of the distribution itself *)
Definition start_value (shapes : list string) (start args : list pyv) (kw : kwds) (i : nat) : pyv :=
  let n := List.length shapes in
  if Nat.ltb i (List.length args) then nth i args Nil
  else match (if Nat.eqb i n then find "loc" kw else if Nat.eqb i (n + 1) then find "scale" kw else None) with
       | Some v => v
       | None => nth i start Nil
       end.
Definition start_vector (shapes : list string) (start args : list pyv) (kw : kwds) : list pyv := map (start_value shapes start args kw) (seq 0 (List.length shapes + 2)).
(* the search is on unless it is switched off *)
Definition searching (kw : kwds) : bool := match find "search" kw with Some v => truth v | None => true end.
(* a search from x: a second run from the point of the first one when that reports a problem *)
Definition run (opt : optimizer) (F : list pyv -> res R) (x : list pyv) : res (list pyv) :=
  let* (p, flag) := opt F x in if Z.eqb flag 0 then Ok p else let* (q, _) := opt F p in Ok q.
(* the keywords a fit knows; loc and scale only count when they are not given by position *)
Definition known (shapes : list string) (args : list pyv) : list string :=
  (List.concat (all_shape_keys shapes) ++ ["floc"; "fscale"; "method"; "search"; "optimizer"]
   ++ (if Nat.ltb (List.length args) (List.length shapes + 1) then ["loc"] else [])
   ++ (if Nat.ltb (List.length args) (List.length shapes + 2) then ["scale"] else []))%list.
