(* Model of the adaptive integrators of src/wafo/integrate.py: gaussq with its cache of rules, quadgr,
   richardson, and the start of romberg.  Exact real arithmetic; NaN is None. *)
From Coq Require Import Reals.
From Verif Require Import Base PolyModel OrthoModel QuadModel.
Local Open Scope R_scope.

(* ---- gaussq ------------------------------------------------------------------------------------ *)
Definition oadd (a b : option R) : option R := match a, b with Some x, Some y => Some (x + y) | _, _ => None end.
Definition oscale (c : R) (a : option R) : option R := option_map (Rmult c) a.
(* np.sum(weights * y) *)
Fixpoint osum (weights : list R) (y : list (option R)) : option R :=
  match weights, y with w :: ws, v :: vs => oadd (oscale w v) (osum ws vs) | _, _ => Some 0 end.
Definition in_list (n : nat) (l : list nat) : bool := existsb (Nat.eqb n) l.
(* integrate.py:967-975 _get_jacob *)
Definition gq_jacob (wfun : nat) (a b : R) : R :=
  if in_list wfun [2; 3]%nat then 1 else if in_list wfun [7; 8; 9]%nat then (b - a) * (1/2) * 2 else (b - a) * (1/2).
(* integrate.py:926-937 _get_dx *)
Definition gq_dx (wfun : nat) (jacob alpha beta : R) : R :=
  match wfun with
  | 4%nat => Rpower jacob (alpha + beta + 1)
  | 5%nat => 1 | 6%nat => jacob ^ 2 | 8%nat => sqrt jacob | 9%nat => sqrt jacob ^ 3
  | _ => jacob
  end.
(* integrate.py:1032-1037 the estimate with the rule [nodes, weights]; 998-999: the lower limit is 0 for wfun 2, 3 *)
Definition gq_estimate (wfun : nat) (alpha beta : R) (rule : list R * list R) (f : R -> option R) (a b : R) : option R :=
  let a0 := if in_list wfun [2; 3]%nat then 0 else a in
  let jacob := gq_jacob wfun a0 b in
  let shift := if in_list wfun [1; 4; 5; 6]%nat then 1 else 0 in
  let x := map (fun t => (t + shift) * jacob + a0) (fst rule) in
  oscale (gq_dx wfun jacob alpha beta) (osum (snd rule) (map f x)).

(* one integral of the vectorised call: val, val_old, abserr, and whether its index is in k *)
Record gq_elem := { gval : option R; gold : option R; gerr : option R; gact : bool }.
Definition gq_init : gq_elem := {| gval := Some 0; gold := None; gerr := Some (10 ^ 100); gact := true |}.
Definition oabsdiff (a b : option R) : option R := match a, b with Some x, Some y => Some (Rabs (x - y)) | _, _ => None end.
(* abserr > np.maximum(abs(releps * val), abseps); a comparison with NaN is False *)
Definition ogt_tol (err val : option R) (releps abseps : R) : bool :=
  match err, val with
  | Some e, Some v => if Rlt_dec (Rmax (Rabs (releps * v)) abseps) e then true else false
  | _, _ => false
  end.
(* integrate.py:1037-1045 the body of the loop for one integral in iteration i; [est] is its new estimate,
   [store] the conversion to the type of the array val (that of the integrand's values) *)
Definition gq_step (store : R -> R) (releps abseps : R) (i : nat) (est : option R) (s : gq_elem) : gq_elem :=
  let v := if gact s then option_map store est else gval s in
  let v := match v with None => gold s | _ => v end in
  let e := if gact s && (1 <? i)%nat then oabsdiff (gold s) v else gerr s in
  let k := ogt_tol e v releps abseps in
  {| gval := v; gold := if k then v else gold s; gerr := e; gact := k |}.
(* integrate.py:1029-1046 the loop over i = i0, i0 + 1, ... of at most n more iterations for all integrals
   together; [ests i] are the estimates of iteration i *)
Fixpoint map2g {A B C} (f : A -> B -> C) (a : list A) (b : list B) : list C :=
  match a, b with x :: a', y :: b' => f x y :: map2g f a' b' | _, _ => [] end.
Fixpoint gq_loop (store : R -> R) (releps abseps : R) (ests : nat -> list (option R)) (n i : nat) (l : list gq_elem) : list gq_elem :=
  match n with
  | O => l
  | S n' =>
    let l' := map2g (gq_step store releps abseps i) (ests i) l in
    if existsb gact l' then gq_loop store releps abseps ests n' (S i) l' else l'
  end.
(* integrate.py:1008-1054 __call__; an integral is (f, a, b), f having received its coefficients; the rule of
   iteration i has 2 ** (i + 1) nodes; (val, abserr) for each integral *)
Definition gaussq (store : R -> R) (rules : nat -> list R * list R) (wfun : nat) (alpha beta releps abseps : R) (max_iter : nat)
  (integrals : list ((R -> option R) * R * R)) : list (option R * option R) :=
  let ests i := map (fun q => let '(f, a, b) := q in gq_estimate wfun alpha beta (rules (2 ^ (i + 1))%nat) f a b) integrals in
  map (fun s => (gval s, gerr s)) (gq_loop store releps abseps ests max_iter 0 (map (fun _ => gq_init) integrals)).

(* ---- the cache of rules -------------------------------------------------------------------------- *)
(* integrate.py:940-948 _nodes_and_weights with the module level dictionary; a shape parameter is an integer
   multiple of 10^-7 in [1, 10), for which '{:g}' keeps five decimals (round half to even); [qrule] is the rule *)
Definition fmt_g (alpha : Z) : Z :=
  let q := (alpha / 100)%Z in let r := (alpha mod 100)%Z in
  if (r <? 50)%Z then q else if (50 <? r)%Z then (q + 1)%Z else if Z.even q then q else (q + 1)%Z.
Definition cache A := list ((nat * nat * Z * Z) * A).
Definition key_eqb (k l : nat * nat * Z * Z) : bool :=
  let '(a, b, c, d) := k in let '(a', b', c', d') := l in
  Nat.eqb a a' && Nat.eqb b b' && Z.eqb c c' && Z.eqb d d'.
Fixpoint cache_find {A} (c : cache A) (k : nat * nat * Z * Z) : option A :=
  match c with [] => None | (k', v) :: c' => if key_eqb k k' then Some v else cache_find c' k end.
Definition nodes_and_weights {A} (fmt : Z -> Z) (qrule : nat -> nat -> Z -> Z -> A) (c : cache A) (num_nodes wfun : nat) (alpha beta : Z) : A * cache A :=
  let name := (wfun, num_nodes, fmt alpha, fmt beta) in
  match cache_find c name with
  | Some r => (r, c)
  | None => let r := qrule num_nodes wfun alpha beta in (r, (name, r) :: c)
  end.

(* a session: the cache after a sequence of earlier queries *)
Definition cache_after {A} (fmt : Z -> Z) (qrule : nat -> nat -> Z -> Z -> A) (history : list (nat * nat * Z * Z)) : cache A :=
  fold_left (fun c q => let '(n, w, al, be) := q in snd (nodes_and_weights fmt qrule c n w al be)) history [].

(* ---- richardson ----------------------------------------------------------------------------------- *)
(* integrate.py:1060-1066, real arguments; a quotient 0 / 0 is NaN and max(nan, 0.07) is NaN; a quotient
   x / 0 is infinite and the correction is then 0 *)
Definition richardson (q : nat -> option R) (k : nat) : option R :=
  match q k, q (k - 1)%nat, q (k - 2)%nat with
  | Some q0, Some q1, Some q2 =>
    if Req_EM_T q0 q1 then if Req_EM_T q1 q2 then None else Some q0
    else let c := (q1 - q2) / (q0 - q1) - 1 in Some (q0 + (q0 - q1) / Rmax c (7 / 100))
  | _, _, _ => None
  end.

(* ---- quadgr ---------------------------------------------------------------------------------------- *)
(* integrate.py:1184-1196 the nodes of iteration k: x = hstack([x + a, x + b]) / 2 *)
Fixpoint qg_nodes (xn : list R) (a b : R) (k : nat) : list R :=
  match k with
  | O => map (fun t => (a + b) / 2 + (b - a) / 2 * t) xn
  | S k' => let x := qg_nodes xn a b k' in map (fun t => (t + a) / 2) x ++ map (fun t => (t + b) / 2) x
  end.
Fixpoint qg_dx (a b : R) (k : nat) : R := match k with O => (b - a) / 2 | S k' => qg_dx a b k' / 2 end.
(* np.reshape(y, (-1, n)) summed over the rows *)
Fixpoint rows_sum (fuel n : nat) (y : list R) : list R :=
  match fuel with
  | O => repeat 0 n
  | S fuel' => match y with [] => repeat 0 n | _ => map2g Rplus (firstn n y) (rows_sum fuel' n (skipn n y)) end
  end.
(* val0[k]; for k = 0 the single row *)
Definition qg_val0 (nodes weights : list R) (f : R -> R) (a b : R) (k : nat) : R :=
  let y := map f (qg_nodes nodes a b k) in
  sumR (map2g Rmult (rows_sum (List.length y) (List.length nodes) y) weights) * qg_dx a b k.
(* integrate.py:1160-1168 the extrapolated values, 0 where they are not computed *)
Definition qg_val1 (v0 : nat -> option R) (k : nat) : option R := if (3 <=? k)%nat then richardson v0 k else Some 0.
Definition qg_val2 (v0 : nat -> option R) (k : nat) : option R := if (5 <=? k)%nat then richardson (qg_val1 v0) k else Some 0.
(* errors.argmin(): the first NaN if there is one, else the first smallest *)
Fixpoint best_from (q e : option R) (l : list (option R * option R)) : option R * option R :=
  match l with
  | [] => (q, e)
  | (q', e') :: l' =>
    match e, e' with
    | None, _ => (q, e)
    | Some _, None => (q', e')
    | Some x, Some x' => if Rlt_dec x' x then best_from q' e' l' else best_from q e l'
    end
  end.
(* integrate.py:1137-1157 _get_best_estimate *)
Definition qg_best (v0 : nat -> option R) (k : nat) : option R * option R :=
  let pair v := (v k, oabsdiff (v k) (v (k - 1)%nat)) in
  let p0 := pair v0 in
  if (6 <=? k)%nat then best_from (fst p0) (snd p0) [pair (qg_val1 v0); pair (qg_val2 v0)]
  else if (4 <=? k)%nat then best_from (fst p0) (snd p0) [pair (qg_val1 v0)] else p0.
(* (err < abseps) | ~np.isfinite(q_val) *)
Definition qg_converged (qe : option R * option R) (abseps : R) : bool :=
  match qe with
  | (None, _) => true
  | (Some _, Some e) => if Rlt_dec e abseps then true else false
  | (Some _, None) => false
  end.
(* integrate.py:1191-1205 the loop over k *)
Fixpoint qg_loop (v0 : nat -> option R) (abseps : R) (n k : nat) (last : res (option R * option R)) : res (option R * option R) :=
  match n with
  | O => last
  | S n' => let qe := qg_best v0 k in if qg_converged qe abseps then Ok qe else qg_loop v0 abseps n' (S k) (Ok qe)
  end.
(* integrate.py:1170-1214 _integrate; the integrand is finite at the nodes; with max_iter = 1 the variable
   `converged` is never assigned; [int_dtype]: the integrand's values are integers, for which np.finfo raises *)
Definition qg_integrate (int_dtype : bool) (eps : R) (nodes weights : list R) (f : R -> R) (a b abseps : R) (max_iter : nat)
  : res (option R * option R) :=
  let* qe := qg_loop (fun k => Some (qg_val0 nodes weights f a b k)) abseps (max_iter - 1) 1 (Err UnboundLocal) in
  if int_dtype then Err ValueError else Ok (fst qe, oadd (snd qe) (Some (2 * eps))).
(* integrate.py:1108-1125 _change_variable_and_integrate: the integrands after the change of variable *)
Definition to_infinity (f : R -> R) (a t : R) : R := f (a + t / (1 - t)) / (1 - t) ^ 2.
Definition from_infinity (f : R -> R) (b t : R) : R := f (b + t / (1 + t)) / (1 + t) ^ 2.
Inductive limit := NegInf | Fin (x : R) | PosInf.
(* limits already in order; the transformed integrands have float values *)
Definition qg_ordered (int_dtype : bool) (eps : R) (nodes weights : list R) (f : R -> R) (a b : limit) (abseps : R) (max_iter : nat)
  : res (option R * option R) :=
  match a, b with
  | Fin a, Fin b => qg_integrate int_dtype eps nodes weights f a b abseps max_iter
  | Fin a, _ => qg_integrate false eps nodes weights (to_infinity f a) 0 1 abseps max_iter
  | _, Fin b => qg_integrate false eps nodes weights (from_infinity f b) (-1) 0 abseps max_iter
  | _, _ =>
    let* r1 := qg_integrate false eps nodes weights (to_infinity f 0) 0 1 (abseps / 2) max_iter in
    let* r2 := qg_integrate false eps nodes weights (from_infinity f 0) (-1) 0 (abseps / 2) max_iter in
    Ok (oadd (fst r1) (fst r2), oadd (snd r1) (snd r2))
  end.
(* a == b *)
Definition lim_eqb (a b : limit) : bool :=
  match a, b with
  | NegInf, NegInf | PosInf, PosInf => true
  | Fin x, Fin y => if Req_EM_T x y then true else false
  | _, _ => false
  end.
(* a > b *)
Definition lim_gtb (a b : limit) : bool :=
  match a, b with
  | Fin x, Fin y => if Rlt_dec y x then true else false
  | PosInf, PosInf | NegInf, _ => false
  | PosInf, _ | _, NegInf => true
  | Fin _, PosInf => false
  end.
(* integrate.py:1216-1255 __call__ for real limits; inf - inf is NaN *)
Definition quadgr (int_dtype : bool) (eps : R) (nodes weights : list R) (f : R -> R) (a b : limit) (abseps : R) (max_iter : nat)
  : res (option R * option R) :=
  if lim_eqb a b then
    match a, b with Fin x, Fin y => Ok (Some (y - x), Some (Rabs (y - x))) | _, _ => Ok (None, None) end
  else if lim_gtb a b then
    let* r := qg_ordered int_dtype eps nodes weights f b a abseps max_iter in Ok (option_map Ropp (fst r), snd r)
  else qg_ordered int_dtype eps nodes weights f a b abseps max_iter.

(* ---- romberg ---------------------------------------------------------------------------------------- *)
(* integrate.py:170-174 [lg] is np.round(np.log2(h / h_min)), a float: min and max return their first
   argument when equal, and zeros((2, table_limit)) refuses a float *)
Definition romberg_table_limit (lg : Z) : res nat :=
  if (30 <? lg)%Z then Ok 30%nat else if (lg <? 3)%Z then Ok 3%nat else Err TypeError.
(* integrate.py:183-203 the extrapolation table: row 0 of step i is the trapezoidal rule with 2 ** i panels *)
Fixpoint rom_trap (f : R -> R) (a h : R) (i : nat) : R :=
  match i with
  | O => h * (f a + f (a + h)) / 2
  | S i' => 1/2 * rom_trap f a h i' + sumR (map (fun j => f (a + INR (2 * j + 1) * (h / 2 ^ i))) (seq 0 (2 ^ i'))) * (h / 2 ^ i)
  end.
Fixpoint rom_entry (f : R -> R) (a h : R) (k i : nat) : R :=
  match k with
  | O => rom_trap f a h i
  | S k' => rom_entry f a h k' i + (rom_entry f a h k' i - rom_entry f a h k' (i - 1)) / (4 ^ S k' - 1)
  end.
(* the loop from step i on; [dea3] is the library's extrapolation *)
Fixpoint rom_loop (dea3 : R -> R -> R -> R * R) (f : R -> R) (a h releps abseps : R) (n i : nat) (q1 q2 q4 : R) : res (R * R) :=
  match n with
  | O => Err ValueError
  | S n' =>
    let q1' := q2 in let q2' := q4 in let q4' := rom_entry f a h i i in
    if (2 <=? i)%nat then
      let re := dea3 q1' q2' q4' in
      if Rle_dec (snd re) (Rmax abseps (releps * Rabs (fst re))) then Ok re
      else rom_loop dea3 f a h releps abseps n' (S i) q1' q2' q4'
    else rom_loop dea3 f a h releps abseps n' (S i) q1' q2' q4'
  end.
(* integrate.py:136-221 romberg *)
Definition romberg (dea3 : R -> R -> R -> R * R) (lg : Z) (f : R -> R) (a b releps abseps : R) : res (R * R) :=
  let* limit := romberg_table_limit lg in
  let h := b - a in
  rom_loop dea3 f a h releps abseps (limit - 1) 1 0 0 (rom_trap f a h 0).
