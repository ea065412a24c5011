(* Model of the covariances, confidence intervals, p-values and empirical densities of fitted distributions
   (src/wafo/stats/estimation.py:1123-1330, 1512-1542, 1614-1650) over exact reals. *)
From Coq Require Import Reals List ZArith Bool.
From Verif Require Import Base KdeModel ProcModel PolyModel HistModel.
Import ListNotations.
Local Open Scope R_scope.

Definition mat := list (list R).
Definition cell (M : mat) (i j : nat) : R := nth j (nth i M []) 0.
Definition put (M : mat) (i j : nat) (v : R) : mat := upd M i (upd (nth i M []) j v).
Definition zeros (n : nat) : mat := repeat (repeat 0 n) n.

(* 1242-1259 the loop over j of _hessian; sp is the list sparam, d the step delta *)
Fixpoint hessian_row (f : list R -> R) (theta : list R) (d : R) (i : nat) (js : list nat) (sp : list R) (H : mat) : mat :=
  match js with
  | [] => H
  | j :: js' =>
      let sp1 := upd (upd sp i (at_R theta i + d)) j (at_R theta j + d) in
      let sp2 := upd sp1 j (at_R theta j - d) in
      let sp3 := upd sp2 i (at_R theta i - d) in
      let sp4 := upd sp3 j (at_R theta j + d) in
      let e := (f sp1 + f sp3 - (f sp4 + f sp2)) / (4 * d ^ 2) in
      hessian_row f theta d i js' (upd sp4 j (at_R theta j)) (put (put H i j e) j i e)
  end.
(* 1234-1259 the loop over i *)
Fixpoint hessian_loop (f : list R -> R) (theta : list R) (d : R) (is : list nat) (H : mat) : mat :=
  match is with
  | [] => H
  | i :: is' =>
      let sp1 := upd theta i (at_R theta i + d) in
      let sp2 := upd sp1 i (at_R theta i - d) in
      let e := (f sp1 - 2 * f theta + f sp2) / d ^ 2 in
      hessian_loop f theta d is' (hessian_row f theta d i (seq (i + 1) (List.length theta - (i + 1))) sp2 (put H i i e))
  end.
(* 1215-1260 _hessian; f is nnlf(., data).  eps is 2 ** -13 when it is not given: 2 ** -52 to the power 0.25 *)
Definition hessian (f : list R -> R) (theta : list R) (eps : option R) : mat :=
  let eps := match eps with Some e => e | None => / 2 ^ 13 end in
  let d := (eps + 2) - 2 in
  map (map Ropp) (hessian_loop f theta d (seq 0 (List.length theta)) (zeros (List.length theta))).

(* 1150-1161 _get_fixed_par: par_fix (None stands for nan), i_notfixed and i_fixed.  The parameters are finite *)
Definition fixes := (list (option R) * list nat * list nat)%type.
Definition positions (p : option R -> bool) (l : list (option R)) : list nat :=
  filter (fun i => p (nth i l None)) (seq 0 (List.length l)).
Definition is_fixed (v : option R) : bool := match v with Some _ => true | None => false end.
Fixpoint mark (par : list R) (fixedn : list nat) (l : list (option R)) : res (list (option R)) :=
  match fixedn with
  | [] => Ok l
  | i :: t => if (i <? List.length par)%nat then mark par t (upd l i (Some (at_R par i))) else Err IndexError
  end.
Definition get_fixed_par (par : list R) (fixedn : option (list nat)) : res (option fixes) :=
  match fixedn with
  | None => Err TypeError
  | Some [] => Ok None
  | Some l => let* pf := mark par l (repeat None (List.length par)) in
              Ok (Some (pf, positions (fun v => negb (is_fixed v)) pf, positions is_fixed pf))
  end.

(* 1293-1307 _invert_hessian; pinv is numpy's *)
Definition block (H : mat) (l : list nat) : mat := map (fun i => map (fun j => cell H i j) l) l.
Definition negate (M : mat) : mat := map (map Ropp) M.
(* par_cov[i, i_notfixed] = pcov[row, :] *)
Fixpoint put_row (M : mat) (i : nat) (cols : list nat) (v : list R) : mat :=
  match cols, v with c :: cols', a :: v' => put_row (put M i c a) i cols' v' | _, _ => M end.
Fixpoint put_rows (M : mat) (rows cols : list nat) (P : mat) : mat :=
  match rows, P with i :: rows', v :: P' => put_rows (put_row M i cols v) rows' cols P' | _, _ => M end.
Definition invert_hessian (pinv : mat -> mat) (fix_ : option fixes) (H : mat) : mat :=
  match fix_ with
  | Some (pf, free, _) =>
      if existsb is_fixed pf then
        if forallb is_fixed pf then zeros (List.length H)
        else put_rows (zeros (List.length H)) free free (negate (pinv (block H free)))
      else negate (pinv H)
  | None => negate (pinv H)
  end.
(* 1309-1323 _compute_cov with a pinv that does not raise, preceded by 1142: the parameters that were fixed *)
Definition compute_cov (pinv : mat -> mat) (f : list R -> R) (par : list R) (fixedn : option (list nat)) : res mat :=
  let* fx := get_fixed_par par fixedn in
  Ok (invert_hessian pinv fx (hessian f par None)).

(* 1177-1180 _get_confidence_interval; the square root of a negative number is nan: None *)
Definition sqrt_ (v : R) : option R := if Rle_dec 0 v then Some (sqrt v) else None.
Definition diag (M : mat) : list R := map (fun i => cell M i i) (seq 0 (List.length M)).
Definition confidence_interval (norm_ppf : R -> R) (alpha : R) (par : list R) (cov : mat) : list (option R) * list (option R) :=
  let z := map (fun v => match sqrt_ v with Some s => Some (- norm_ppf (alpha / 2) * s) | None => None end) (diag cov) in
  (map2 (fun p s => match s with Some s => Some (p - s) | None => None end) par z,
   map2 (fun p s => match s with Some s => Some (p + s) | None => None end) par z).

(* 1632-1649 _pvalue: the mean and the variance of Moran's statistic, and what chi2sf is applied to *)
Definition moran_mean (n : nat) : R := (INR n + 1) * (ln (INR n + 1) + 57722 / 100000) - 1 / 2 - 1 / (12 * (INR n + 1)).
Definition moran_var (n : nat) : R := (INR n + 1) * (PI ^ 2 / 6 - 1) - 1 / 2 - 1 / (6 * (INR n + 1)).
Definition moran_chi2 (t : R) (n k : nat) : res R :=
  if (n =? 0)%nat then Err ZeroDivision
  else let c1 := moran_mean n - sqrt (1 / 2 * INR n * moran_var n) in
       let c2 := sqrt (moran_var n / (2 * INR n)) in
       Ok ((t + 1 / 2 * INR k - c1) / c2).
(* 1614-1650 for the statistic t; numpar is unknown_numpar *)
Definition pvalue (chi2sf : R -> nat -> R) (t : R) (n : nat) (theta : list R) (numpar : option nat) : res R :=
  let* s := moran_chi2 t n (match numpar with Some k => k | None => List.length theta end) in Ok (chi2sf s n).

(* 1512-1526 _get_grid.  With delta = 0 the mantissa is nan, and np.arange raises ValueError *)
Definition grid_step (w : R) : R :=
  let e := floor (ln w / ln 10) in
  let m := floor (w / powerRZ 10 e) in
  let m := if (5 <? m)%Z then 5%Z else if (2 <? m)%Z then 2%Z else m in
  IZR m * powerRZ 10 e.
Definition get_grid (x : list R) (odd : bool) : res (list R) :=
  match x with
  | [] => Err ValueError
  | _ =>
      let n := ceil (4 * sqrt (sqrt (INR (List.length x)))) in
      let w := (maxR x - minR x) / IZR n * 2 in
      if Rlt_dec 0 w then
        let d := grid_step w in
        let lo := (IZR (floor (minR x / d)) - 1) * d - b2r odd * d / 2 in
        let hi := (IZR (ceil (maxR x / d)) + 1) * d + b2r odd * d / 2 in
        arange lo hi d
      else Err ValueError
  end.
(* 1529-1537 _staircase: x and y are copied three times *)
Definition staircase (x : list R) (y : list (option R)) : list R * list (option R) :=
  (removelast (tl (repeat3 x)), flat_map (fun b => [Some 0; b; b]) y ++ [Some 0]).
(* 1539-1542 _get_empirical_pdf *)
Definition empirical_pdf (x : list R) : res (list R * list (option R)) :=
  let* limits := get_grid x false in
  let* (pdf, e) := np_histogram x (Sequence limits) None None true in
  Ok (staircase e pdf).
