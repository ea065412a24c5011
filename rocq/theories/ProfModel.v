(* Model of the profile functions of src/wafo/stats/estimation.py:236-541, 666-676 (cited as es) over exact reals.
   The maximum of the log likelihood over the free parameters, found by Nelder-Mead in the code, is a parameter: a function of the profiled variable
   with values that are all finite; what depends only on plotting is left out. *)
From Coq Require Import Reals ZArith List Bool String.
From Verif Require Import Base CrossModel EcrossModel KdeModel FilterModel.
Import ListNotations.
Local Open Scope R_scope.

(* np.sign *)
Definition signR (x : R) : Z := if Rlt_dec 0 x then 1%Z else if Rlt_dec x 0 then (-1)%Z else 0%Z.
(* misc.py:1063-1069 findcross(x, v) over the reals: the level enters by the signs only, which CrossModel handles *)
Definition findcrossR (m : impl) (x : list R) (v : R) : res (list nat) := findcross m (map (fun a => signR (a - v)) x) 0 None.

(* np.unique: sorted, without repetitions *)
Fixpoint dedup (l : list R) : list R :=
  match l with
  | [] => []
  | x :: l' => match l' with [] => [x] | y :: _ => if Req_EM_T x y then dedup l' else x :: dedup l' end
  end.
Definition unique (l : list R) : list R := dedup (sortR l).
(* np.linspace(a, b, n), [a] for n = 1 *)
Definition linspace1 (a b : R) (n : nat) : list R := match n with 1%nat => [a] | _ => linspace a b n end.
(* es:428-438 _adaptive_pvec *)
Definition adaptive_pvec (n : nat) (p_opt pmin pmax : R) : list R :=
  let p_crit_low := (p_opt - pmin) / 5 in
  let p_crit_up := (pmax - p_opt) / 5 in
  let nd4 := (n / 4)%nat in
  let a := p_opt - p_crit_low in
  let b := p_opt + p_crit_up in
  unique (linspace1 pmin a (nd4 + 1) ++ [p_opt] ++ linspace1 a b (n - 2 * nd4) ++ linspace1 b pmax (nd4 + 1)).

(* es:303-317 _correct_profile_max, the levels only *)
Definition correct (lmaxdiff : R) (s : R * R) (v : R) : R * R :=
  let '(profile_max, level) := s in if Rlt_dec (profile_max + lmaxdiff) v then (v, level + (v - profile_max)) else s.

(* es:340 (pvec >= p_opt).argmax(): the first index, 0 when there is none *)
Fixpoint first_from (p_opt : R) (l : list R) (i : nat) : option nat := match l with [] => None | p :: l' => if Rle_dec p_opt p then Some i else first_from p_opt l' (S i) end.
Definition start_index (pvec : list R) (p_opt : R) : nat := match first_from p_opt pvec 0 with Some i => i | None => 0%nat end.
(* es:350-354 one direction, until the values fall below the level *)
Fixpoint walk (prof : R -> R) (level : R) (l : list R) : list (R * R) :=
  match l with [] => [] | p :: l' => let v := prof p in if Rlt_dec v level then [(p, v)] else (p, v) :: walk prof level l' end.
(* es:329-361 _get_profile and _prettify_profile: the points where the profile was computed, with its values *)
Definition get_profile (prof : R -> R) (alpha_range p_opt : R) (pvec : list R) : res (list (R * R)) :=
  let start := start_index pvec p_opt in
  let* p0 := geti pvec start in
  let level := prof p0 - alpha_range in
  Ok (rev (walk prof level (rev (firstn start pvec))) ++ [(p0, prof p0)] ++ walk prof level (skipn (S start) pvec)).

(* es:448-465 _update_p_opt; converged is the last entry *)
Definition update_p_opt (alpha_range level p_minmax_opt delta_p profile_max p_minmax : R) (j : nat) : R * R * bool :=
  if Rlt_dec profile_max (level - alpha_range * 5 * (INR j + 1)) then (p_minmax, delta_p * (33 / 100), false)
  else if Rlt_dec profile_max level then (p_minmax, delta_p, true)
  else ((if Rlt_dec profile_max (level + alpha_range) then p_minmax else p_minmax_opt), delta_p * (167 / 100), false).
(* es:475-484 the loop of _search_p_min_max; k is the number of steps that are left, the state is that of [correct] *)
Fixpoint search_loop (prof : R -> R) (lmaxdiff alpha_range sign p_opt : R) (k j : nat) (state : R * R) (p_minmax_opt delta_p : R) : R * bool * (R * R) :=
  match k with
  | O => (p_minmax_opt, false, state)
  | S k' =>
      let p_minmax := p_opt + sign * delta_p in
      let v := prof p_minmax in
      let state' := correct lmaxdiff state v in
      let '(opt, delta, converged) := update_p_opt alpha_range (snd state') p_minmax_opt delta_p v p_minmax (S j) in
      if converged then (opt, true, state') else search_loop prof lmaxdiff alpha_range sign p_opt k' (S j) state' opt delta
  end.
(* es:467-491 _search_p_min_max; sign is -1 for 'min' and 1 for 'max' *)
Definition search_p_min_max (prof : R -> R) (lmaxdiff alpha_range : R) (state : R * R) (p_minmax0 p_opt sign : R) : R * bool * (R * R) :=
  let delta_p := Rmax (sign * (p_minmax0 - p_opt) / 40) (1 / 100) * 10 in
  search_loop prof lmaxdiff alpha_range sign p_opt 51 0 (correct lmaxdiff state (prof p_opt)) p_minmax0 delta_p.

(* the fields of a profile used for its bounds *)
Record profile := Profile { args : list R; data : list R; profile_max : R; pmin : option R; pmax : option R }.
(* float(x): None is a TypeError *)
Definition to_float (x : option R) : res R := match x with Some x => Ok x | None => Err TypeError end.
Definition first (l : list R) : res R := geti l 0.
(* es:507-524 _check_bounds *)
Definition check_bounds (p : profile) (cross_level : R) (ind : list nat) : res (option R * option R) :=
  match ind with
  | [] => Ok (pmin p, pmax p)
  | [i] =>
      let* crossing := ecross (args p) (data p) ind cross_level in
      let* a := geti (data p) i in
      let* b := geti (data p) (i + 1) in
      let* c := first crossing in
      if Rlt_dec a b then let* u := to_float (pmax p) in Ok (Some c, Some u)
      else let* l := to_float (pmin p) in Ok (Some l, Some c)
  | i :: rest =>
      let* b := ecross (args p) (data p) [i; last rest i] cross_level in
      match b with [l; u] => Ok (Some l, Some u) | _ => Err ValueError end
  end.
(* es:526-541 get_bounds; chi2isf(alpha, 1) is a parameter *)
Definition get_bounds (m : impl) (chi2isf : R -> R) (p : profile) (alpha : R) : res (option R * option R) :=
  let cross_level := profile_max p - 1 / 2 * chi2isf alpha in
  let* ind := findcrossR m (data p) cross_level in
  match ind with
  | [i; j] =>
      let* b := ecross (args p) (data p) ind cross_level in
      match b with [l; u] => Ok (Some l, Some u) | _ => Err ValueError end
  | _ => check_bounds p cross_level ind
  end.

(* es:267-300 _default_i_fixed, _get_not_fixed_mask, _check_i_fixed, _set_indexes: par_fix has None for the parameters that are free (nan), and is itself
   None when no parameter is fixed; npar = len(par).  Returns i_fixed and i_free *)
Definition flatnonzero (l : list bool) : list nat := map fst (filter (fun p => snd p) (combine (seq 0 (List.length l)) l)).
Definition free_mask (par_fix : option (list (option R))) (npar : nat) : list bool :=
  match par_fix with None => repeat true npar | Some l => map (fun o => match o with None => true | Some _ => false end) l end.
Definition default_i_fixed (par_fix : option (list (option R))) : res nat :=
  match par_fix with
  | None => Ok 0%nat
  | Some l => match rev (flatnonzero (free_mask par_fix 0)) with [] => Err IndexError | i :: _ => Ok i end
  end.
Definition set_indexes (par_fix : option (list (option R))) (npar : nat) (i : option nat) : res (nat * list nat) :=
  let* i := match i with Some i => Ok i | None => default_i_fixed par_fix end in
  let i_notfixed := flatnonzero (free_mask par_fix npar) in
  if existsb (Nat.eqb i) i_notfixed then Ok (i, filter (fun j => negb (Nat.eqb j i)) i_notfixed) else Err IndexError.
