(* Model of Moran's statistic, the objective of the maximum product of spacings
   (src/wafo/stats/_distn_infrastructure.py:72-162). *)
From Coq Require Import Reals Lra.
From Verif Require Import Base.
Local Open Scope R_scope.

(* a standardised distribution: accepted shape parameters, closed support (a, b) where None is infinite, pdf, cdf and sf.
   scipy's cdf(x, *args) and sf are those of the standard distribution (loc 0, scale 1) *)
Record dist := Dist { argcheck : list R -> bool; low : list R -> option R; high : list R -> option R; pdf : list R -> R -> R; cdf : list R -> R -> R; sf : list R -> R -> R }.

(* a logarithm of numpy: None is -inf or nan *)
Definition nlog (x : R) : option R := if Rlt_dec 0 x then Some (ln x) else None.
(* np.diff *)
Fixpoint rdiff (l : list R) : list R := match l with a :: ((b :: _) as t) => (b - a) :: rdiff t | _ => [] end.

(* scipy's _support_mask: a <= x <= b *)
Definition inside (d : dist) (args : list R) (x : R) : bool :=
  ((match low d args with None => true | Some a => if Rle_dec a x then true else false end) &&
   (match high d args with None => true | Some b => if Rle_dec x b then true else false end))%bool.

(* 72-84 _resolve_ties: where x[i] = x[i+1] the entry i+1 becomes log(pdf(x[i])) - log(scale); [logs] has one entry more than x *)
Fixpoint ties_from (d : dist) (args : list R) (scale : R) (x : list R) (logs : list (option R)) : list (option R) :=
  match x, logs with
  | a :: ((b :: _) as x'), l :: logs' =>
      (if Req_EM_T (b - a) 0 then match nlog (pdf d args a), nlog scale with Some p, Some s => Some (p - s) | _, _ => None end else l) :: ties_from d args scale x' logs'
  | _, _ => logs
  end.
Definition resolve_ties (d : dist) (args : list R) (scale : R) (x : list R) (logs : list (option R)) : list (option R) :=
  match logs with [] => [] | l :: logs' => l :: ties_from d args scale x logs' end.

(* 87-98 _log_dprb; [xmin] is scipy's _XMIN *)
Definition log_dprb (xmin : R) (d : dist) (x args : list R) (scale : R) (lowertail : bool) : list (option R) :=
  let dprb := if lowertail then rdiff (0 :: map (cdf d args) x ++ [1]) else map Ropp (rdiff (1 :: map (sf d args) x ++ [0])) in
  resolve_ties d args scale x (map (fun p => nlog (p + xmin)) dprb).

Definition finite (l : list (option R)) : list R := flat_map (fun o => match o with Some v => [v] | None => [] end) l.
Definition rsum (l : list R) : R := fold_right Rplus 0 l.

(* 101-116 _nlogps_and_penalty; [xmax] is scipy's _XMAX *)
Definition nlogps_and_penalty (xmin xmax : R) (d : dist) (x : list R) (scale : R) (args : list R) : R :=
  let x' := filter (inside d args) x in
  let logs := log_dprb xmin d x' args scale true in
  let n_bad := (List.length x - List.length x' + (List.length logs - List.length (finite logs)))%nat in
  - rsum (finite logs) + (if Nat.ltb 0 n_bad then 100 * ln xmax * INR n_bad else 0).

(* 119-148 _penalized_nlogps: None is inf; 151-158 _unpack_loc_scale: fewer than two parameters -> ValueError *)
Definition penalized_nlogps (xmin xmax : R) (d : dist) (theta x : list R) : res (option R) :=
  let n := List.length theta in
  if Nat.ltb n 2 then Err ValueError
  else
    let loc := nth (n - 2) theta 0 in
    let scale := nth (n - 1) theta 0 in
    let args := firstn (n - 2) theta in
    if (negb (argcheck d args) || (if Rle_dec scale 0 then true else false))%bool then Ok None
    else Ok (Some (nlogps_and_penalty xmin xmax d (map (fun v => (v - loc) / scale) x) scale args)).
