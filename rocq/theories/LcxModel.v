(* Model of the class LevelCrossings (src/wafo/objects.py:91-366) over exact reals.  nan and infinities are None.  np.polyfit and the fits of
   the tails are parameters; the plotting and the confidence bands of the genpareto tail are left out. *)
From Coq Require Import Reals List ZArith String.
From Verif Require Import Base PolyModel ProcModel SpectModel.
Import ListNotations.
Local Open Scope R_scope.

(* 124: -log(data), inf where data is 0; the counts are not negative *)
Definition neglog (d : R) : option R := if Req_EM_T d 0 then None else Some (- ln d).
(* 125-127: the signed square roots.  If the largest count is 0 all are nan *)
Definition roots (data : list R) (i : nat) : list (option R) :=
  match neglog (at_R data i) with
  | None => map (fun _ => None) data
  | Some lmin =>
      let root d := match neglog d with None => None | Some v => Some (sqrt (2 * Rabs (v - lmin))) end in
      map (fun k => match root (at_R data k) with None => None | Some r => Some (if (k <=? i)%nat then 2 * sqrt (2 * Rabs (lmin - lmin)) - r else r) end) (seq 0 (List.length data))
  end.
(* 128, 130: l[10:-10] *)
Definition cut {A} (l : list A) : list A := firstn (List.length l - 20) (skipn 10 l).
Fixpoint all_some {A} (l : list (option A)) : option (list A) :=
  match l with [] => Some [] | None :: _ => None | Some a :: l => match all_some l with None => None | Some r => Some (a :: r) end end.
(* 117-133 estimate_mean_and_stdev: mean and sigma.  polyfit refuses empty arrays with TypeError; an inf or nan among the values gives nan (or
   an error of the solver): None *)
Definition estimate (polyfit : list R -> list R -> R * R) (data args : list R) (i : nat) : res (option (R * R)) :=
  match cut args with
  | [] => Err TypeError
  | x =>
      match all_some (cut (roots data i)) with
      | None => Ok None
      | Some y => let p := polyfit x y in if Req_EM_T (fst p) 0 then Ok None else Ok (Some (- snd p / fst p, 1 / fst p))
      end
  end.
(* 101-115 the constructor with data: mean, sigma and the child, the crossing spectrum of a normal process *)
Definition init (polyfit : list R -> list R -> R * R) (data args : list R) (mean sigma : option R) : res (option R * option R * option (list R)) :=
  match data with
  | [] => Err ValueError
  | _ =>
      let i := argmaxR data in
      let* ms := match mean, sigma with
                 | Some m, Some s => Ok (Some m, Some s)
                 | _, _ =>
                     let* e := estimate polyfit data args i in
                     Ok (match mean with Some m => Some m | None => option_map fst e end, match sigma with Some s => Some s | None => option_map snd e end)
                 end in
      Ok (fst ms, snd ms,
          match ms with
          | (Some m, Some s) => if Req_EM_T s 0 then None else Some (map (fun u => at_R data i * exp (- (((u - m) / s) * ((u - m) / s)) / 2)) args)
          | _ => None
          end)
  end.

(* 347-361 _make_increasing, for pairs of a count and a level: the records *)
Fixpoint records (last : R) (l : list (R * R)) : list (R * R) :=
  match l with [] => [] | (f, t) :: l => if Rlt_dec last f then (f, t) :: records f l else records last l end.
Definition make_increasing (l : list (R * R)) : res (list (R * R)) :=
  match l with [] => Err IndexError | (f, t) :: l => Ok ((f, t) :: records f l) end.
(* 279-285, 287: every level as often as the integer part of its count exceeds the one before, less u.  A negative number of copies raises
   ValueError *)
Fixpoint sample (u : R) (nim1 : Z) (l : list (R * R)) : res (list R) :=
  match l with
  | [] => Ok []
  | (f, t) :: l =>
      if (floor f <? nim1)%Z then Err ValueError
      else let* r := sample u (floor f) l in Ok (repeat (t - u) (Z.to_nat (floor f - nim1)) ++ r)
  end.
Definition starts (s p : string) : bool := String.prefix p s.
(* 266-342 _extrapolate: levels and counts of the tail.  fit is the survival function fitted to the sample, for dist in lower case *)
Definition tail (fit : list R -> R -> R) (dist : string) (lcx lcf : list R) (u : R) : res (list (R * R)) :=
  let exceed := filter (fun ft => if Rlt_dec u (snd ft) then true else false) (combine lcf lcx) in
  let* l := make_increasing (rev exceed) in
  let* x := sample u 0 l in
  let lcu := interp lcx lcf u + 1 in
  if starts dist "gen" || starts dist "exp" || starts dist "ray" || starts dist "trun" then
    Ok (map (fun k => (INR k / 100 + u, lcu * fit x (INR k / 100))) (seq 0 401))
  else Err NotImplementedError.
(* 234-242: the levels with more than sqrt(c_max) crossings *)
Definition common (data args : list R) : list R := map snd (filter (fun ft => if Rlt_dec (sqrt (at_R data (argmaxR data))) (fst ft) then true else false) (combine data args)).
Definition default_limit (pick : list R -> option R) (given : option R) (data args : list R) : res R :=
  match given with Some u => Ok u | None => match pick (common data args) with None => Err ValueError | Some u => Ok u end end.
Definition first_of (l : list R) : option R := match l with [] => None | a :: _ => Some a end.
Definition last_of (l : list R) : option R := match l with [] => None | a :: l => Some (last l a) end.
(* 135-264 extrapolate: counts and levels of the result *)
Definition extrapolate (fit : list R -> R -> R) (dist : string) (data args : list R) (umin umax : option R) : res (list R * list R) :=
  match data with
  | [] => Err ValueError
  | _ =>
      let* umin := default_limit first_of umin data args in
      let* umax := default_limit last_of umax data args in
      let* high := tail fit dist args data umax in
      let* low := tail fit dist (map Ropp (rev args)) (rev data) (- umin) in
      let low := map (fun p => (- fst p, snd p)) (rev low) in
      let mid := filter (fun ft => if Rlt_dec umin (snd ft) then (if Rlt_dec (snd ft) umax then true else false) else false) (combine data args) in
      Ok (map snd low ++ map fst mid ++ map snd high, map fst low ++ map snd mid ++ map fst high)
  end.
