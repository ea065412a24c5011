(* The kernel functions of src/wafo/kdetools/kernels.py.  Arithmetic is exact; scipy's gamma function is exp (gammaln x) for a parameter
   gammaln.  A point is the list of its d coordinates (a column of the two dimensional array of the code). *)
From Coq Require Import Reals Lra List Bool String.
From Verif Require Import Base PolyModel FilterModel KdeModel TransModel.
Import ListNotations.
Local Open Scope R_scope.

(* kernels.py:235-259 sphere_volume *)
Definition sphere_volume (gammaln : R -> R) (d : nat) (r : R) : R :=
  r ^ d * 2 * Rpower PI (INR d / 2) / (INR d * exp (gammaln (INR d / 2))).
(* the classes: 319-343 _KernelMulti, 351-369 _KernelProduct, 378-385 _KernelRectangular, 391-395 _KernelTriangular, 401-410
   _KernelGaussian, 437-444 _KernelLaplace, 450-454 _KernelLogistic *)
Inductive mkernel := Multi (p : nat) (r : R) | Product (p : nat) (r : R) | Rectangular (r : R) | Triangular (r : R) | Gaussian (r : R) | Laplace (r : R) | Logistic (r : R).
(* np.prod *)
Definition prodl (l : list R) : R := fold_right Rmult 1 l.
(* kernels.py:339-343, 366-369, 380-381, 393-395, 403-406, 439-441, 452-454 _kernel at one point *)
Definition kernel (k : mkernel) (x : list R) : R :=
  match k with
  | Multi p r => Rmax 0 (1 - npsum (map (fun v => v ^ 2) x) / r ^ 2) ^ p
  | Product p r => prodl (map (fun v => Rmax 0 (1 - (v / r) ^ 2) ^ p) x)
  | Rectangular r => if forallb (fun v => if Rle_dec (Rabs v) r then true else false) x then 1 else 0
  | Triangular _ => prodl (map (fun v => Rmax 0 (1 - Rabs v)) x)
  | Gaussian r => let sigma := r / 4 in exp (- (1 / 2) * npsum (map (fun v => (v / sigma) ^ 2) x))
  | Laplace _ => exp (- npsum (map Rabs x))
  | Logistic _ => prodl (map (fun v => let s := exp v in s / (s + 1) ^ 2) x)
  end.
(* kernels.py:276-279, 332-337, 359-364, 383-385, 408-410, 443-444 norm_factor for n points in d dimensions.
   np.r_[1:p+1] is 1, ..., p and np.r_[(d+2):(2p+d+1):2] is d+2, d+4, ..., d+2p *)
Definition norm_factor (gammaln : R -> R) (k : mkernel) (d n : nat) : res R :=
  let ones p := prodl (map (fun i => INR (S i)) (seq 0 p)) in
  let steps p d := prodl (map (fun i => INR (d + 2 + 2 * i)) (seq 0 p)) in
  match k with
  | Multi p r => Ok (2 ^ p * ones p * sphere_volume gammaln d r / steps p d)
  | Product p r => Ok ((2 ^ p * ones p * sphere_volume gammaln 1 r / steps p 1%nat) ^ d)
  | Rectangular r => Ok ((2 * r) ^ d)
  | Gaussian r => let sigma := r / 4 in Ok (Rpower (2 * PI * sigma) (INR d / 2))
  | Laplace _ => Ok (2 ^ d)
  | _ => if Nat.eqb d 0 then Err ValueError else if Nat.eqb n 0 then Err ValueError else Ok 1
  end.
(* kernels.py:285-287 norm_kernel for the points of an array with d rows *)
Definition norm_kernel (gammaln : R -> R) (k : mkernel) (d : nat) (x : list (list R)) : res (list R) :=
  let* c := norm_factor gammaln k d (List.length x) in Ok (map (fun v => kernel k v / c) x).
(* kernels.py:36-43 the statistics, 346-348, 372-375, 388, 398, 433, 447, 457 the kernels; None is inf *)
Definition st (a b : R) (c : option R) : R * R * option R := (a, b, c).
Definition stats_epan := st (1 / 5) (3 / 5) None.
Definition stats_biwe := st (1 / 7) (5 / 7) (Some (45 / 2)).
Definition stats_triw := st (1 / 9) (350 / 429) None.
Definition stats_rect := st (1 / 3) (1 / 2) None.
Definition stats_tria := st (1 / 6) (2 / 3) None.
Definition stats_lapl := st 2 (1 / 4) None.
Definition stats_logi := st (PI ^ 2 / 3) (1 / 6) (Some (1 / 42)).
Definition stats_gaus := st 1 (1 / (2 * sqrt PI)) (Some (3 / (8 * sqrt PI))).
(* kernels.py:459-470: key, kernel, statistics, name (268-270: the name of the class where none is given) *)
Definition mkernel_dict : list (string * (mkernel * (R * R * option R) * string)) :=
  [ ("epan", (Multi 1 1, stats_epan, "epanechnikov")); ("biwe", (Multi 2 1, stats_biwe, "biweight")); ("triw", (Multi 3 1, stats_triw, "triweight"));
    ("p1ep", (Product 1 1, stats_epan, "p1epanechnikov")); ("p1bi", (Product 2 1, stats_biwe, "p1biweight")); ("p1tr", (Product 3 1, stats_triw, "p1triweight"));
    ("rect", (Rectangular 1, stats_rect, "Rectangular")); ("tria", (Triangular 1, stats_tria, "Triangular")); ("lapl", (Laplace 7, stats_lapl, "Laplace"));
    ("logi", (Logistic 7, stats_logi, "Logistic")); ("gaus", (Gaussian 4, stats_gaus, "Gaussian")) ]%string.
Fixpoint dict_get {A} (key : string) (d : list (string * A)) : res A :=
  match d with [] => Err KeyError | (k, v) :: r => if String.eqb key k then Ok v else dict_get key r end.
(* kernels.py:557-558 Kernel(name): the first four letters select the kernel *)
Definition get_kernel (name : string) : res (mkernel * (R * R * option R) * string) := dict_get (substring 0 4 name) mkernel_dict.
(* kernels.py:314-315 effective_support *)
Definition radius (k : mkernel) : R :=
  match k with Multi _ r | Product _ r | Rectangular r | Triangular r | Gaussian r | Laplace r | Logistic r => r end.
Definition effective_support (k : mkernel) : R * R := (- radius k, radius k).
(* kernels.py:295-302 *)
Definition ste_constant (s : R * R * option R) (n : R) : R := let '(mu2, Rk, _) := s in Rk / (n * mu2 ^ 2).
Definition amise_constant (s : R * R * option R) (n : R) : R := let '(mu2, Rk, _) := s in Rpower (8 * sqrt PI * Rk / (3 * mu2 ^ 2 * n)) (1 / 5).
(* kernels.py:412-423 deriv4_6_8_10 at t *)
Definition next_poly (pn : list R) : list R := polyadd (map Ropp (pn ++ [0])) (polyder1 pn).
Fixpoint deriv_loop (m : nat) (pn : list R) (t phi0 : R) : list R :=
  match m with
  | O => []
  | S m' => let pnp2 := next_poly (next_poly pn) in polyval pnp2 t * phi0 :: deriv_loop m' pnp2 t phi0
  end.
Definition deriv4_6_8_10 (t : R) (numout : nat) : list R :=
  let phi0 := exp (- (1 / 2) * t ^ 2) / sqrt (2 * PI) in
  let pn := [1; 0; - 6; 0; 3] in
  polyval pn t * phi0 :: deriv_loop (numout - 1) pn t phi0.
(* kernels.py:425-430 psi for a derivative of order r; np.r_[rd2+1:r+1] is rd2+1, ..., r *)
Definition psi (r : nat) (sigma : R) : R :=
  let rd2 := Nat.div2 r in
  (-1) ^ rd2 * prodl (map INR (seq (rd2 + 1) (r - rd2))) / (sqrt PI * (2 * sigma) ^ (r + 1)).
(* kernels.py:696-709 _hmns_scale *)
Definition hmns_scale (gammaln : R -> R) (short : string) (n : R) (d : nat) : res R :=
  let scale := fun v => Ok (v * Rpower n (- (1 / (INR d + 4)))) in
  if String.eqb short "epan" then scale (Rpower (8 * (INR d + 4) * (2 * sqrt PI) ^ d / sphere_volume gammaln d 1) (1 / (4 + INR d)))
  else if (String.eqb short "biwe" || String.eqb short "triw")%bool then
    if Nat.ltb 2 d then Err NotImplementedError else scale (if String.eqb short "biwe" then 27779 / 10000 else 312 / 100)
  else if String.eqb short "gaus" then scale (Rpower (4 / (INR d + 2)) (1 / (INR d + 4)))
  else Err NotImplementedError.
(* np.percentile(l, q) of one row that is not empty: linear interpolation between the sorted values *)
Definition percentile (q : R) (l : list R) : R :=
  let s := sortR l in
  let t := INR (List.length l - 1) * (q / 100) in
  let j := Z.to_nat (Int_part t) in
  at_R s j + (t - INR j) * (at_R s (Nat.min (S j) (List.length l - 1)) - at_R s j).
(* kernels.py:199-232 iqrange of one row *)
Definition iqrange (l : list R) : R := Rabs (percentile 75 l - percentile 25 l).
(* np.std(l, ddof=1); nan (None) for a single value *)
Definition std1 (l : list R) : option R :=
  let mean := npsum l / INR (List.length l) in
  if Nat.leb (List.length l) 1 then None else Some (sqrt (npsum (map (fun v => (v - mean) ^ 2) l) / INR (List.length l - 1))).
(* kernels.py:638-649 hns: the bandwidth for one row of the data, which is not empty *)
Definition hns_row (s : R * R * option R) (l : list R) : option R :=
  match std1 l with
  | None => None
  | Some sd => let iqr := iqrange l in
               let sigma := if Rlt_dec 0 iqr then Rmin sd (iqr / (1349 / 1000)) else sd in Some (sigma * amise_constant s (INR (List.length l)))
  end.
Definition hns (s : R * R * option R) (data : list (list R)) : list (option R) := map (hns_row s) data.
(* kernels.py:651-694 hos *)
Definition hos (s : R * R * option R) (data : list (list R)) : list (option R) := map (option_map (fun v => v / (93 / 100))) (hns s data).
