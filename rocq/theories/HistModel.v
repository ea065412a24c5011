(* Model of the choice of bins and of the histogram polygon (src/wafo/misc.py:2621-2727) over exact reals. *)
From Coq Require Import Reals List ZArith Bool.
From Verif Require Import Base KdeModel ProcModel.
Import ListNotations.
Local Open Scope R_scope.

(* 2657-2658 _default_range: an empty tuple counts as None *)
Definition default_range (range : option (R * R)) (data : option (list R)) : res (R * R) :=
  match range, data with
  | Some r, _ => Ok r
  | None, None => Err AttributeError
  | None, Some [] => Err ValueError
  | None, Some x => Ok (minR x, maxR x)
  end.
(* 2662, 2716: int(np.ceil(4 * np.sqrt(np.sqrt(len(x))))) *)
Definition number_of_bins (n : nat) : Z := ceil (4 * sqrt (sqrt (INR n))).
(* 2660-2663 _default_bins: len(None) is a TypeError *)
Definition default_bins (num_bins : option Z) (data : option (list R)) : res Z :=
  match num_bins, data with Some k, _ => Ok k | None, Some x => Ok (number_of_bins (List.length x)) | None, None => Err TypeError end.
(* 2665-2671 _default_step.  For d <= 0 the logarithm is -inf or nan and the step is nan: None *)
Definition default_step (mn mx : R) (num_bins : Z) : res (option R) :=
  if (num_bins =? 0)%Z then Err ZeroDivision
  else
    let d := (mx - mn) / IZR num_bins * 2 in
    if Rlt_dec 0 d then
      let e := floor (ln d / ln 10) in
      let m := Z.max 0 (Z.min 5 (floor (d / powerRZ 10 e))) in
      let m := if ((2 <? m) && (m <? 5))%Z%bool then 2%Z else m in
      Ok (Some (IZR m * powerRZ 10 e))
    else Ok None.
Definition b2r (b : bool) : R := if b then 1 else 0.
(* 2621-2681 good_bins; np.arange with nan raises ValueError *)
Definition good_bins (data : option (list R)) (range : option (R * R)) (num_bins : option Z) (odd loose : bool) : res (list R) :=
  let* r := default_range range data in
  let* k := default_bins num_bins data in
  let* s := default_step (fst r) (snd r) k in
  match s with
  | None => Err ValueError
  | Some d =>
      let mn := (IZR (floor (fst r / d)) - b2r loose) * d - b2r odd * d / 2 in
      let mx := (IZR (ceil (snd r / d)) + b2r loose) * d + b2r odd * d / 2 in
      arange mn (mx + d / 2) d
  end.

(* the argument bins: None, a number, a list or tuple, a one dimensional array or a column *)
Inductive bins := Default | Number (n : Z) | Sequence (e : list R) | Array (e : list R) | Column (e : list R).
(* np.histogram, from its documentation: the edges *)
Definition outer_edges (range : option (R * R)) (x : list R) : res (R * R) :=
  let* (a, b) := match range, x with
                 | Some (a, b), _ => if Rlt_dec b a then Err ValueError else Ok (a, b)
                 | None, [] => Ok (0, 1)
                 | None, _ => Ok (minR x, maxR x)
                 end in
  if Req_EM_T a b then Ok (a - 1 / 2, b + 1 / 2) else Ok (a, b).
Fixpoint monotonic (e : list R) : bool :=
  match e with a :: ((b :: _) as t) => (if Rle_dec a b then true else false) && monotonic t | _ => true end.
Definition edges (b : bins) (range : option (R * R)) (x : list R) : res (list R) :=
  match b with
  | Default => Err TypeError
  | Number n => if (n <? 1)%Z then Err ValueError else let* (a, b) := outer_edges range x in Ok (linspace a b (Z.to_nat n + 1))
  | Sequence e | Array e => if monotonic e then Ok e else Err ValueError
  | Column _ => Err ValueError
  end.
(* the bins are half open on the right, the last one is closed *)
Definition in_bin_b (e : list R) (i : nat) (x : R) : bool :=
  (if Rle_dec (nth i e 0) x then true else false) &&
  (if (i + 2 =? List.length e)%nat then (if Rle_dec x (nth (i + 1) e 0) then true else false) else (if Rlt_dec x (nth (i + 1) e 0) then true else false)).
Definition bin_weights (e x w : list R) : list R :=
  map (fun i => npsum (map snd (filter (fun p => in_bin_b e i (fst p)) (combine x w)))) (seq 0 (List.length e - 1)).
(* a division of numpy: None is nan or inf *)
Definition quot (a b : R) : option R := if Req_EM_T b 0 then None else Some (a / b).
Definition np_histogram (x : list R) (b : bins) (range : option (R * R)) (weights : option (list R)) (density : bool) : res (list (option R) * list R) :=
  let w := match weights with Some w => w | None => repeat 1 (List.length x) end in
  if negb (List.length w =? List.length x)%nat then Err ValueError
  else
    let* e := edges b range x in
    let n := bin_weights e x w in
    let h := if density then map (fun i => quot (nth i n 0) ((nth (i + 1) e 0 - nth i e 0) * npsum n)) (seq 0 (List.length e - 1)) else map Some n in
    Ok (h, e).

(* 2684-2695 _make_bars: xx and yy *)
Definition repeat3 {A} (l : list A) : list A := flat_map (fun a => [a; a; a]) l.
Definition make_bars (limits : list R) (bin : list (option R)) : list R * list (option R) :=
  (removelast (tl (repeat3 limits)), flat_map (fun b => [Some 0; b; b]) bin ++ [Some 0]).
(* 2699-2725 _histogram: xx, yy, limits (returned as a column), and the caller's bins after the call: np.histogram returns an array of edges
   itself, whose shape is set in 2685 *)
Definition histogram (x : list R) (b : bins) (range : option (R * R)) (density : bool) (weights : option (list R)) : res (list R * list (option R) * list R * bins) :=
  let b' := match b with Default => Number (number_of_bins (List.length x)) | _ => b end in
  let* (h, e) := np_histogram x b' range weights density in
  let '(xx, yy) := make_bars e h in
  Ok (xx, yy, e, match b with Array e => Column e | _ => b end).
