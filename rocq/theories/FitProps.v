(* C132: start values, fixed parameters and the search of a distribution fit. *)
From Coq Require Import Reals String.
From Verif Require Import Base FitModel FitSpec FitProofs5 FitCases.
Import ListNotations.

Local Open Scope string_scope.

(* a fixed parameter comes back with exactly the value it was fixed to, and the second result lists exactly the fixed parameters *)

Theorem c132_fixed_kept : forall e ff shapes start args kw vals fx, legal shapes -> List.length start = (List.length shapes + 2)%nat -> fit e ff shapes start args kw = Ok (vals, fx) ->
  (forall i v, nth_error (fixed shapes kw) i = Some (Some v) -> nth_error vals i = Some v) /\
  (forall i, In i fx <-> exists v, nth_error (fixed shapes kw) i = Some (Some v)).
Proof. exact (fixed_kept). Qed.
Print Assumptions c132_fixed_kept.

(* the free parameters are what the optimiser returned for the objective with the fixed values filled in, started at the start values of the free parameters *)

Theorem c132_free_found : forall e ff shapes start args kw vals fx, legal shapes -> List.length start = (List.length shapes + 2)%nat -> searching kw = true ->
  fit e ff shapes start args kw = Ok (vals, fx) ->
  let fl := fixed shapes kw in
  exists m opt F p, choose_objective (find "method" kw) = Ok m /\ get_optimizer e (filter (fun kv => String.eqb (fst kv) "optimizer") kw) = Ok (opt, [])
    /\ (forall full, List.length full = List.length fl -> agrees fl full -> F (free fl full) = ff m full)
    /\ run opt F (free fl (start_vector shapes start args kw)) = Ok p /\ free fl vals = firstn (n_free fl) p.
Proof. exact (free_found). Qed.
Print Assumptions c132_free_found.

Theorem c132_no_search : forall e ff shapes start args kw vals fx, legal shapes -> List.length start = (List.length shapes + 2)%nat -> searching kw = false ->
  fit e ff shapes start args kw = Ok (vals, fx) ->
  List.length vals = (List.length shapes + 2)%nat /\ forall i, (i < List.length shapes + 2)%nat ->
    nth i vals Nil = match nth i (fixed shapes kw) None with Some v => v | None => start_value shapes start args kw i end.
Proof. exact (no_search). Qed.
Print Assumptions c132_no_search.

Theorem c132_two_names : forall e ff shapes start args kw names, legal shapes -> List.length start = (List.length shapes + 2)%nat -> (List.length args <= List.length shapes + 2)%nat ->
  (exists m, choose_objective (find "method" kw) = Ok m) -> In names (all_shape_keys shapes) -> (2 <= List.length (given kw names))%nat -> fit e ff shapes start args kw = Err ValueError.
Proof. exact (two_names). Qed.
Print Assumptions c132_two_names.

Theorem c132_all_fixed : forall e ff shapes start args kw, legal shapes -> List.length start = (List.length shapes + 2)%nat -> (List.length args <= List.length shapes + 2)%nat ->
  (exists m, choose_objective (find "method" kw) = Ok m) -> (forall i, (i < List.length shapes + 2)%nat -> exists v, nth_error (fixed shapes kw) i = Some (Some v)) ->
  fit e ff shapes start args kw = Err ValueError.
Proof. exact (all_fixed). Qed.
Print Assumptions c132_all_fixed.

Theorem c132_too_many : forall e ff shapes start args kw, (List.length shapes + 2 < List.length args)%nat -> fit e ff shapes start args kw = Err TypeError.
Proof. exact (too_many). Qed.
Print Assumptions c132_too_many.

Theorem c132_unknown_keyword : forall e ff shapes start args kw k v, legal shapes -> List.length start = (List.length shapes + 2)%nat -> searching kw = true ->
  In (k, v) kw -> ~ In k (known shapes args) -> forall r, fit e ff shapes start args kw <> Ok r.
Proof. exact (unknown). Qed.
Print Assumptions c132_unknown_keyword.

Theorem c132_method : forall s, choose_objective (Some (Str (lower s))) = choose_objective (Some (Str s)) /\ (exists m, choose_objective (Some (Str s)) = Ok m)
  /\ choose_objective (Some (Str ("mps" ++ s))) = Ok MPS /\ choose_objective (Some (Str ("ml" ++ s))) = Ok ML.
Proof. exact (method_case). Qed.
Print Assumptions c132_method.

(* a misspelt keyword goes unnoticed when the search is off *)

Theorem c132_unknown_keyword_refuted : forall e ff shapes start args kw k v, legal shapes -> List.length start = (List.length shapes + 2)%nat -> (List.length args <= List.length shapes + 2)%nat ->
  searching kw = false -> ~ In k (List.concat (all_shape_keys shapes) ++ own_keys)%list ->
  fit e ff shapes start args ((k, v) :: kw) = fit e ff shapes start args kw.
Proof. exact (misspelt). Qed.
Print Assumptions c132_unknown_keyword_refuted.

(* floc=None does not mean a free location, as it does for a shape parameter *)

Theorem c132_none_refuted : forall e ff shapes start args kw vals fx, legal shapes -> List.length start = (List.length shapes + 2)%nat -> find "floc" kw = Some Nil ->
  fit e ff shapes start args kw = Ok (vals, fx) -> nth_error vals (List.length shapes) = Some Nil.
Proof. exact (none_location). Qed.
Print Assumptions c132_none_refuted.

Example c132_legal : legal ab.
Proof. exact (ab_legal). Qed.

Example c132_case : fit env1 ff1 ab starts [] kw1 = Ok ([Num 9; Num 5; Num 8; Num 7], [0%nat; 2%nat]) /\ searching kw1 = true.
Proof. exact (kw1_fit). Qed.

Example c132_off_case : fit env1 ff1 ab starts [Num 6] [("search", Flag false); ("f1", Num 9); ("scale", Num 0); ("flocc", Num 0)] = Ok ([Num 6; Num 9; Num 3; Num 0], [1%nat]).
Proof. exact (off_fit). Qed.

Example c132_error_cases : fit env1 ff1 ab starts [] [("f0", Num 9); ("fa", Num 9)] = Err ValueError
  /\ fit env1 ff1 ab starts [] [("f0", Num 9); ("fb", Num 9); ("floc", Num 1); ("fscale", Num 2)] = Err ValueError
  /\ fit env1 ff1 ab starts [] [("f2", Num 9)] = Err TypeError /\ fit env1 ff1 ab starts starts [("loc", Num 9)] = Err TypeError.
Proof. exact (twice_fit). Qed.

Example c132_none_case : fit env1 ff1 ab starts [] [("f0", Nil); ("floc", Nil)] = Ok ([Num 1; Num 2; Nil; Num 4], [2%nat]).
Proof. exact (none_fit). Qed.
