(* Model of src/wafo/kdetools/kdetools.py over exact real numbers: point and grid evaluation of KDE, kernel regression and
   BKRegression.  The kernel and its normalisation (kernels.py) are parameters here, see KernelModel.v. *)
From Coq Require Import Reals.
From Coquelicot Require Import Complex.
From Verif Require Import Base PolyModel OrthoModel FilterModel GridModel DftModel.
Local Open Scope R_scope.

(* numpy sum *)
Definition npsum (l : list R) : R := fold_right Rplus 0 l.
(* np.linspace(a, b, n) for n >= 2 *)
Definition linspace (a b : R) (n : nat) : list R := map (fun i => a + INR i * ((b - a) / INR (n - 1))) (seq 0 n).

(* ---- KDE: evaluation at points -------------------------------------------------------------------- *)
(* the fields used: data set (list of its n columns), _inv_hs (list of rows), _lambda, kernel and the property norm_factor *)
Record kde := Kde { dataset : list (list R); inv_hs : list (list R); lambda_ : list R; kernel : list R -> R; norm_factor : R }.
Definition dot (a x : list R) : R := npsum (map (fun p => fst p * snd p) (combine a x)).
Definition mat_vec (m : list (list R)) (x : list R) : list R := map (fun row => dot row x) m.
Definition vec_sub (a b : list R) : list R := map (fun p => fst p - snd p) (combine a b).
(* kdetools.py:750-753 _moment_fun *)
Definition moment_fun (r : nat) (x : list R) : R := match r with O => 1 | _ => npsum (map (fun v => v ^ r) x) end.
(* kdetools.py:765 and 779: y is an array or (repeated) a scalar *)
Definition y_d_lambda (k : kde) (d : nat) (y : list R) : list R := map (fun p => fst p / snd p ^ d) (combine y (lambda_ k)).
(* kdetools.py:759-771 _loop_over_data: result += ... for every datum *)
Definition loop_over_data (k : kde) (points : list (list R)) (y : list R) (r : nat) : list R :=
  let d := List.length (inv_hs k) in
  let yl := y_d_lambda k d y in
  let step result i :=
    let Xi := nth i (dataset k) [] in
    map (fun q => let dxi := vec_sub (fst q) Xi in
                  let tdiff := mat_vec (map (map (fun v => v / at_R (lambda_ k) i)) (inv_hs k)) dxi in
                  snd q + moment_fun r dxi * kernel k tdiff * at_R yl i) (combine points result) in
  map (fun v => v / norm_factor k) (fold_left step (seq 0 (List.length (dataset k))) (repeat 0 (List.length points))).
(* kdetools.py:773-785 _loop_over_points *)
Definition loop_over_points (k : kde) (points : list (list R)) (y : list R) (r : nat) : list R :=
  let d := List.length (inv_hs k) in
  let yl := y_d_lambda k d y in
  let one p := npsum (map (fun i =>
    let dxi := vec_sub p (nth i (dataset k) []) in
    let tdiff := mat_vec (inv_hs k) (map (fun v => v / at_R (lambda_ k) i) dxi) in
    moment_fun r dxi * kernel k tdiff * at_R yl i) (seq 0 (List.length (dataset k)))) in
  map (fun v => v / norm_factor k) (map one points).
(* kdetools.py:787-817 _eval_points *)
Definition eval_points (k : kde) (points : list (list R)) (y : list R) (r : nat) : res (list R) :=
  if forallb (fun p => (List.length p =? List.length (inv_hs k))%nat) points then
    if (List.length (dataset k) <=? List.length points)%nat then Ok (loop_over_data k points y r) else Ok (loop_over_points k points y r)
  else Err ValueError.

(* ---- KDE: evaluation on a grid of one dimension with fft -------------------------------------------- *)
(* kdetools.py:676-687 _make_flat_grid for d = 1: 2 inc offsets *)
Definition flat_grid (dx : R) (inc : nat) : list R := map (fun v => v * dx) (firstn (2 * inc) (linspace (- INR inc) (INR inc) (2 * inc + 1))).
(* kdetools.py:689-707 _kernel_weights; [norm_fact] is self._norm_factor * kernel.norm_factor(d, n), n the number of data *)
Definition kernel_weights (kern : R -> R) (norm_fact : R) (n : nat) (Xn : list R) (dx : R) : list R :=
  let kw := map kern Xn in
  let norm_fact0 := npsum kw * dx * INR n in
  let nf := if Rlt_dec (5 / 100 * norm_fact) (Rabs (norm_fact0 - norm_fact)) then norm_fact0 else norm_fact in
  map (fun v => v / nf) kw.
(* np.fft.ifftshift of a sequence with 2 inc entries *)
Definition ifftshift {A} (inc : nat) (l : list A) : list A := skipn inc l ++ firstn inc l.
(* kdetools.py:709-738 _eval_grid_fast for d = 1; the bandwidth is the scalar h *)
Definition eval_grid_fast (kern : R -> R) (h norm_fact : R) (data x y : list R) (r : nat) : res (list R) :=
  let inc := List.length x in
  let dx := at_R x 1 - at_R x 0 in
  let Xnc := flat_grid dx inc in
  let kw := kernel_weights kern norm_fact (List.length data) (map (fun v => / h * v) Xnc) dx in
  let kw := match r with O => kw | _ => map (fun p => fst p * moment_fun r [snd p]) (combine kw Xnc) end in
  let kw := ifftshift inc kw in
  let* c := gridcount (map (fun v => [v]) data) [x] y in
  let z i := fst (ifft (2 * inc) (fun k => Cmult (fft (2 * inc) (padded c) k) (fft (2 * inc) (padded kw) k)) i) in
  let keep v := match r with O => if Rlt_dec 0 v then v else 0 | _ => v end in
  Ok (map (fun i => keep (z i)) (seq 0 inc)).

(* ---- KRegression --------------------------------------------------------------------------------- *)
(* kdetools.py:921-932 _eval_gridfun at one point, from the sums returned by grdfun; the clip to the largest float is dropped *)
Definition kreg0 (tiny s0 t0 : R) : R := t0 / (s0 + tiny).
Definition kreg1 (s0 s1 s2 t0 t1 : R) : R := (s2 * t0 - s1 * t1) / (s2 * s0 - s1 ^ 2).
(* with grdfun = tkde.eval_grid, which is eval_points for one dimension and no transformation (740-748) *)
Definition kregression (tiny : R) (p : nat) (k : kde) (y x : list R) : res (list R) :=
  let pts := map (fun v => [v]) x in
  let one := repeat 1 (List.length (dataset k)) in
  let* s0 := eval_points k pts one 0 in
  let* t0 := eval_points k pts y 0 in
  match p with
  | O => Ok (map (fun q => kreg0 tiny (fst q) (snd q)) (combine s0 t0))
  | 1%nat =>
    let* s1 := eval_points k pts one 1 in
    let* s2 := eval_points k pts one 2 in
    let* t1 := eval_points k pts y 1 in
    Ok (map (fun i => kreg1 (at_R s0 i) (at_R s1 i) (at_R s2 i) (at_R t0 i) (at_R t1 i)) (seq 0 (List.length x)))
  | _ => Ok []    (* None *)
  end.

(* ---- BKRegression ---------------------------------------------------------------------------------- *)
(* kdetools.py:1004-1012 get_grid; int truncates *)
Definition minR (l : list R) : R := match l with [] => 0 | a :: l' => fold_left Rmin l' a end.
Definition maxR (l : list R) : R := match l with [] => 0 | a :: l' => fold_left Rmax l' a end.
Definition get_grid (x : list R) (hs_e : R) : list R :=
  let ni := Nat.max (2 * Z.to_nat (Int_part ((maxR x - minR x) / hs_e)) + 3) 5 in
  linspace (minR x - hs_e) (maxR x + hs_e) ni.
(* kdetools.py:1014-1032 _wilson_score; z0 = -invnorm(alpha/2) is not 0 *)
Definition wilson_score (invnorm : R -> R) (n p alpha : R) : R * R :=
  let z0 := - invnorm (alpha / 2) in
  let nz02 := n / z0 ^ 2 in
  let xc := (p * nz02 + 1 / 2) / (1 + nz02) in
  let halfwidth := sqrt (nz02 * p * (1 - p) + 1 / 4) / (1 + nz02) in
  (xc - Rmin halfwidth 1, xc + Rmin halfwidth 1).
(* kdetools.py:1034-1056 _credible_interval; [isf q a b] is st.beta.isf *)
Definition credible_interval (isf : R -> R -> R -> R) (a b n p alpha : R) : R * R :=
  (if Req_EM_T p 0 then 0 else isf (1 - alpha / 2) (n * p + a) (n * (1 - p) + b),
   if Req_EM_T p 1 then 1 else isf (alpha / 2) (n * p + a) (n * (1 - p) + b)).
(* kdetools.py:1073-1113 prb_empirical: the probabilities and the counts; [y] holds zeros and ones *)
Definition prb_empirical (tiny : R) (x y : list R) (xi : list R) : res (list R * list R) :=
  let col l := map (fun v => [v]) l in
  let* c := gridcount (col x) [xi] [1] in
  let hit := map fst (filter (fun p => if Req_EM_T (snd p) 1 then true else false) (combine x y)) in
  let* c0 := match hit with [] => Ok (repeat 0 (List.length xi)) | _ => gridcount (col hit) [xi] [1] end in
  Ok (map (fun q => if Req_EM_T (fst q) 0 then 0 else snd q / (fst q + tiny)) (combine c c0), c).
