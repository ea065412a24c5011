(* Model of the keyword handling of rv_continuous.fit1
   (src/wafo/stats/_distn_infrastructure.py:196-447): start values, fixed
   parameters, the reduced objective and the search. *)
From Coq Require Import Reals String Ascii DecimalString.
From Verif Require Import Base.
Local Open Scope string_scope.

(* a Python value that can be given for a keyword; [Fun k] is the k-th callable *)
Inductive pyv := Num (r : R) | Str (s : string) | Flag (b : bool) | Nil | Fun (k : nat).
(* a dict with string keys in order of insertion *)
Definition kwds := list (string * pyv).

(* key in kwds / kwds[key] *)
Fixpoint find (k : string) (d : kwds) : option pyv :=
  match d with [] => None | (k', v) :: d' => if String.eqb k k' then Some v else find k d' end.
(* kwds.pop(key) without the value *)
Definition drop (k : string) (d : kwds) : kwds := filter (fun e => negb (String.eqb k (fst e))) d.
(* kwds[key] = v for a key that does not occur *)
Definition store (k : string) (v : pyv) (d : kwds) : kwds := (d ++ [(k, v)])%list.

(* str(j), '%d' % j *)
Definition dec (j : nat) : string := NilEmpty.string_of_uint (Nat.to_uint j).
Definition num_key (j : nat) : string := "f" ++ dec j.
(* 217: the three names for the j-th shape parameter *)
Definition shape_keys (j : nat) (s : string) : list string := [num_key j; "f" ++ s; "fix_" ++ s].

(* 188-203 _get_fixed_fit_value: the names that occur are taken out; two of them -> ValueError *)
Fixpoint take (names : list string) (d : kwds) : list pyv * kwds :=
  match names with
  | [] => ([], d)
  | k :: names' =>
      match find k d with
      | Some v => let (vs, d') := take names' (drop k d) in (v :: vs, d')
      | None => take names' d
      end
  end.
Definition get_fixed_fit_value (names : list string) (d : kwds) : res (pyv * kwds) :=
  let (vs, d') := take names d in
  match vs with [] => Ok (Nil, d') | [v] => Ok (v, d') | _ => Err ValueError end.

(* 206-219 _convert_fshapes2num; [shapes] is the list of names self.shapes.replace(',', ' ').split(), empty when self.shapes is None *)
Fixpoint convert_from (j : nat) (shapes : list string) (d : kwds) : res kwds :=
  match shapes with
  | [] => Ok d
  | s :: shapes' =>
      let* (v, d1) := get_fixed_fit_value (shape_keys j s) d in
      convert_from (S j) shapes' (match v with Nil => d1 | _ => store (num_key j) v d1 end)
  end.
Definition convert_fshapes2num (shapes : list string) (d : kwds) : res kwds := convert_from 0 shapes d.

(* 226-233 the loop over names in _unpack_args_kwds: x0, args, fixedn and the remaining keywords *)
Fixpoint split_from (n : nat) (names : list string) (args : list pyv) (d : kwds) : res (list pyv * list pyv * list nat * kwds) :=
  match names with
  | [] => Ok ([], args, [], d)
  | k :: names' =>
      match args with
      | [] => Err IndexError
      | a :: args' =>
          match find k d with
          | Some v => let* (x0, args1, fixedn, d1) := split_from (S n) names' args' (drop k d) in Ok (x0, v :: args1, n :: fixedn, d1)
          | None => let* (x0, args1, fixedn, d1) := split_from (S n) names' args' d in Ok (a :: x0, a :: args1, fixedn, d1)
          end
      end
  end.
(* 225: the names of the parameters *)
Definition par_keys (n : nat) : list string := (map num_key (seq 0 n) ++ ["floc"; "fscale"])%list.
(* 222-235 _unpack_args_kwds *)
Definition unpack_args_kwds (shapes : list string) (args : list pyv) (d : kwds) : res (list pyv * list pyv * list nat * kwds) :=
  let* d1 := convert_fshapes2num shapes d in
  split_from 0 (par_keys (List.length args - 2)) args d1.

(* 255-264 restore: args with theta in the places that are not fixed; a theta that is too short -> IndexError, a longer one is cut off *)
Fixpoint restore_from (n : nat) (fixedn : list nat) (args theta : list pyv) : res (list pyv) :=
  match args with
  | [] => Ok []
  | a :: args' =>
      if existsb (Nat.eqb n) fixedn then let* r := restore_from (S n) fixedn args' theta in Ok (a :: r)
      else match theta with [] => Err IndexError | t :: theta' => let* r := restore_from (S n) fixedn args' theta' in Ok (t :: r) end
  end.
Definition restore (fixedn : list nat) (args theta : list pyv) : res (list pyv) := restore_from 0 fixedn args theta.

(* which of the two objectives: Moran's statistic or the log-likelihood *)
Inductive objective := MPS | ML.
(* str.lower for ASCII letters *)
Definition lower1 (a : ascii) : ascii := let n := nat_of_ascii a in if (Nat.leb 65 n && Nat.leb n 90)%bool then ascii_of_nat (n + 32) else a.
Fixpoint lower (s : string) : string := match s with EmptyString => EmptyString | String a s' => String (lower1 a) (lower s') end.
(* 239-243: a method that is not a string has no lower *)
Definition choose_objective (v : option pyv) : res objective :=
  match v with
  | None => Ok ML
  | Some (Str s) => Ok (if String.prefix "mps" (lower s) then MPS else ML)
  | Some _ => Err AttributeError
  end.

(* the value of an objective at a parameter vector: [Ok r] or an exception of the call.
   [fitfun m theta] stands for self._penalized_nlogps(theta, data) and self._penalized_nnlf(theta, data) *)
Definition fit_function := objective -> list pyv -> res R.
(* 238-270 _reduce_func2: x0, func, restore (None when nothing is fixed), args, fixedn, remaining keywords *)
Record reduced := Reduced { x0 : list pyv; func : list pyv -> res R; back : option (list pyv -> res (list pyv)); rargs : list pyv; fixedn : list nat; rest : kwds }.
Definition reduce_func2 (fitfun : fit_function) (shapes : list string) (args : list pyv) (d : kwds) : res reduced :=
  let* m := choose_objective (find "method" d) in
  let* (x0, args1, fx, d1) := unpack_args_kwds shapes args (drop "method" d) in
  if Nat.eqb (List.length fx) 0 then Ok (Reduced x0 (fitfun m) None args1 fx d1)
  else if Nat.eqb (List.length fx) (List.length args1) then Err ValueError
  else Ok (Reduced x0 (fun theta => let* new := restore fx args1 theta in fitfun m new) (Some (restore fx args1)) args1 fx d1).

(* an optimiser is given the function and the starting point; it returns the final point and the warning flag, or raises *)
Definition optimizer := (list pyv -> res R) -> list pyv -> res (list pyv * Z).
(* the environment: scipy.optimize by name, optimize.fmin, and the callables a user can pass *)
Record env := Env { named : string -> option optimizer; fmin : optimizer; callable : nat -> optimizer }.
(* 273-284 _get_optimizer; a value that is neither a string nor callable fails when it is called (429) *)
Definition get_optimizer (e : env) (d : kwds) : res (optimizer * kwds) :=
  match find "optimizer" d with
  | None => Ok (fmin e, d)
  | Some (Fun k) => Ok (callable e k, drop "optimizer" d)
  | Some (Str s) =>
      match named e (if String.prefix "fmin_" s then s else "fmin_" ++ s) with
      | Some o => Ok (o, drop "optimizer" d)
      | None => Err ValueError
      end
  | Some _ => Ok (fun _ _ => Err TypeError, drop "optimizer" d)
  end.

(* 294-312 _fitstart; [start] is self._fitstart(data), a tuple of numargs + 2 values; Nil is the None of 298 *)
Definition has (k : string) (d : kwds) : bool := match find k d with Some _ => true | None => false end.
Definition fitstart (numargs : nat) (start : list pyv) (args : list pyv) (d : kwds) : res (list pyv * kwds) :=
  let narg := List.length args in
  if Nat.ltb (numargs + 2) narg then Err TypeError
  else
    let own := (Nat.ltb narg numargs || (Nat.ltb narg (numargs + 1) && negb (has "loc" d)) || (Nat.ltb narg (numargs + 2) && negb (has "scale" d)))%bool in
    let start' := if own then start else [Nil; Nil] in
    let args1 := if own then (args ++ skipn narg (firstn (List.length start - 2) start))%list else args in
    let pop k i (ad : list pyv * kwds) :=
      let (a, d) := ad in
      (a ++ [match find k d with Some v => v | None => nth (List.length start' - i) start' Nil end], drop k d)%list in
    let ad1 := if Nat.ltb narg (numargs + 1) then pop "loc" 2%nat (args1, d) else (args1, d) in
    let ad2 := if Nat.ltb narg (numargs + 2) then pop "scale" 1%nat ad1 else ad1 in
    Ok ad2.

(* truth value of a Python object *)
Definition truth (v : pyv) : bool :=
  match v with Num r => if Req_EM_T r 0 then false else true | Str s => negb (String.eqb s "") | Flag b => b | Nil => false | Fun _ => true end.

(* 417-447 _fit; the warning of 288-291 is not modelled *)
Definition fit (e : env) (fitfun : fit_function) (shapes : list string) (start : list pyv) (args : list pyv) (kw : kwds) : res (list pyv * list nat) :=
  let* (args1, d) := fitstart (List.length shapes) start args kw in
  let* r := reduce_func2 fitfun shapes args1 d in
  let search := match find "search" (rest r) with Some v => truth v | None => true end in
  let d2 := drop "search" (rest r) in
  let* vals :=
    if search then
      let* (opt, d3) := get_optimizer e d2 in
      match d3 with
      | _ :: _ => Err TypeError
      | [] =>
          let* (p, flag) := opt (func r) (x0 r) in
          let* (p', _) := if Z.eqb flag 0 then Ok (p, flag) else opt (func r) p in
          Ok p'
      end
    else Ok (x0 r) in
  let* vals := match back r with Some f => f vals | None => Ok vals end in
  Ok (vals, fixedn r).
