(* The constructors of the classes KDE and TKDE of src/wafo/kdetools/kdetools.py and the evaluation of TKDE, over exact real numbers.
   A data set or an array of points is the list of its columns; a value that is nan is None.  [store] is the conversion to the type of an
   existing array: the identity for floats, truncation for integers.  [gs] is kernel.get_smoothing of one row of the data, a parameter
   (for hns see KernelModel.v); [kern] and [nf] are the kernel and kernel.norm_factor(d, n). *)
From Coq Require Import Reals Lra List Bool.
From Verif Require Import Base PolyModel FilterModel KdeModel KernelModel.
Import ListNotations.
Local Open Scope R_scope.

(* dataset[i] *)
Definition row (X : list (list R)) (i : nat) : list R := map (fun p => at_R p i) X.
(* kdetools.py:614-626 _check_hs for a scalar (one entry) or a vector: the bandwidths used, and the array of the caller after the call;
   h.reshape(d) is the array of the caller itself, h * ones(d) is a new array of floats *)
Definition replace_negatives (store : R -> R) (gs : list R -> R) (X : list (list R)) (h : list R) : list R :=
  map (fun i => if Rle_dec (at_R h i) 0 then store (gs (row X i)) else at_R h i) (seq 0 (List.length h)).
Definition check_hs (store : R -> R) (gs : list R -> R) (X : list (list R)) (d : nat) (h : list R) : res (list R * list R) :=
  match h with
  | [a] => Ok (replace_negatives (fun v => v) gs X (repeat a d), h)
  | _ => if Nat.eqb (List.length h) d then let h' := replace_negatives store gs X h in Ok (h', h') else Err ValueError
  end.
(* kdetools.py:628-631 _invert_hs: np.diag(1 / h) *)
Definition diag (l : list R) : list (list R) :=
  map (fun i => map (fun j => if Nat.eqb i j then at_R l i else 0) (seq 0 (List.length l))) (seq 0 (List.length l)).
(* kdetools.py:668-680 the setter of alpha *)
Definition set_alpha (alpha : R) (k : kde) : res kde :=
  let n := List.length (dataset k) in
  let k1 := Kde (dataset k) (inv_hs k) (repeat 1 n) (KdeModel.kernel k) (KdeModel.norm_factor k) in
  if Rlt_dec 0 alpha then
    let* f := eval_points k1 (dataset k) (repeat 1 n) 0 in
    let g := exp (npsum (map ln f) / INR (List.length f)) in
    Ok (Kde (dataset k) (inv_hs k) (map (fun v => Rpower (v / g) (- alpha)) f) (KdeModel.kernel k) (KdeModel.norm_factor k))
  else Ok k1.
(* kdetools.py:607-612 KDE.__init__ with 643-651 the setter of hs: the estimator and the array hs of the caller after the call.  [d] is the
   number of rows of the data.  Not modelled: a full bandwidth matrix *)
Definition kde_init (store : R -> R) (gs : list R -> R) (kern : list R -> R) (nf : nat -> nat -> res R) (d : nat) (X : list (list R)) (hs : option (list R)) (alpha : R) : res (kde * option (list R)) :=
  let* ha := match hs with
             | None => let* p := check_hs (fun v => v) gs X d (map (fun i => gs (row X i)) (seq 0 d)) in Ok (fst p, None)
             | Some h => let* p := check_hs store gs X d h in Ok (fst p, Some (snd p)) end in
  let h := fst ha in
  let deth := prodl h in
  let* c := nf d (List.length X) in
  let* k := set_alpha alpha (Kde X (diag (map (fun v => 1 / v) h)) [] kern (deth * INR (List.length X) * c)) in
  Ok (k, snd ha).
(* kdetools.py:97-102 sigma of one row, 104-113 and 118-127 the default limits of one row; nan if there is one observation *)
Definition sigma_row (l : list R) : option R := option_map (fun s => Rmin s (iqrange l / (134 / 100))) (std1 l).
Definition default_xmin (l : list R) : option R := option_map (fun s => minR l - 2 * s) (sigma_row l).
Definition default_xmax (l : list R) : option R := option_map (fun s => maxR l + 2 * s) (sigma_row l).
(* kdetools.py:201-214 get_args for one dimension *)
Definition get_args (sxmin sxmax : R) (xmin xmax : option R) (inc : nat) : list R :=
  linspace (match xmin with Some v => Rmin v sxmin | None => sxmin end) (match xmax with Some v => Rmax v sxmax | None => sxmax end) inc.
(* kdetools.py:364-369 TKDE._check_xmin for one dimension *)
Definition check_xmin (v2 : R) (l : list R) (xmin : R) : R := if Req_EM_T v2 1 then xmin else Rmax xmin (minR l / 100).

(* np.atleast_1d(L2) * np.ones(d); an empty L2 is not modelled *)
Definition spread_L2 (L2 : list R) (d : nat) : res (list R) :=
  match L2 with [a] => Ok (repeat a d) | _ => if Nat.eqb (List.length L2) d then Ok L2 else if Nat.eqb d 1 then Ok L2 else Err ValueError end.
(* x ** v for x > 0, and for v = 1 any x *)
Definition power (x v : R) : R := if Req_EM_T v 1 then x else Rpower x v.
(* kdetools.py:387-396 _transform, 398-408 _inverse_transform of one point; more exponents than rows: IndexError *)
Definition transform1 (x v2 : R) : R := if Req_EM_T v2 0 then ln x else power x v2.
Definition inverse1 (t v2 : R) : R := if Req_EM_T v2 0 then exp t else power t (1 / v2).
Definition zip_with (f : R -> R -> R) (p L2 : list R) : list R := map (fun q => f (fst q) (snd q)) (combine p L2).
Definition transform (store : R -> R) (L2 : option (list R)) (d : nat) (X : list (list R)) : res (list (list R)) :=
  match L2 with
  | None => Ok X
  | Some l => let* l := spread_L2 l d in if Nat.eqb (List.length l) d then Ok (map (fun p => zip_with (fun x v => store (transform1 x v)) p l) X) else Err IndexError
  end.
Definition inverse_transform (store : R -> R) (L2 : option (list R)) (d : nat) (T : list (list R)) : res (list (list R)) :=
  match L2 with
  | None => Ok T
  | Some l => let* l := spread_L2 l d in if Nat.eqb (List.length l) d then Ok (map (fun p => zip_with (fun x v => store (inverse1 x v)) p l) T) else Err IndexError
  end.
(* kdetools.py:410-422 _scale_pdf; np.max of no differences raises ValueError; [n] is the length of the last axis of pdf *)
Definition scale1 (x v2 : R) : R :=
  let factor := if Req_EM_T v2 0 then 1 else v2 * (if Rlt_dec v2 0 then -1 else 1) in
  if Req_EM_T v2 1 then 1 else power x (v2 - 1) * factor.
Definition scale_pdf (L2 : option (list R)) (d n : nat) (pdf : list R) (points : list (list R)) : res (list R) :=
  match L2 with
  | None => Ok pdf
  | Some l => let* l := spread_L2 l d in
              if (Nat.ltb n 2 || Nat.eqb (List.length pdf) 0)%bool then Err ValueError
              else Ok (map (fun q => fst q * prodl (zip_with scale1 (snd q) l)) (combine pdf points))
  end.
(* kdetools.py:354-362 TKDE.__init__: the estimator of the transformed data; the limits do not enter eval_points *)
Definition tkde_init (dtype store : R -> R) (gs : list R -> R) (kern : list R -> R) (nf : nat -> nat -> res R) (L2 : option (list R)) (d : nat) (X : list (list R)) (hs : option (list R)) (alpha : R) : res (kde * option (list R)) :=
  let* T := transform dtype L2 d X in kde_init store gs kern nf d T hs alpha.
(* kdetools.py:226-234 _check_shape: [rows] is the number of rows of the points; a row with d entries is one point *)
Definition check_shape (d rows : nat) (points : list (list R)) : res (list (list R)) :=
  if Nat.eqb rows d then Ok points
  else if (Nat.eqb rows 1 && Nat.eqb (List.length points) d)%bool then Ok [map (hd 0) points] else Err ValueError.
(* kdetools.py:236-258 eval_points, 471-497 TKDE._eval_points; [dtype] is the type of the points *)
Definition tkde_eval_points (dtype : R -> R) (L2 : option (list R)) (k : kde) (d rows : nat) (points : list (list R)) : res (list R) :=
  let one := repeat 1 (List.length (dataset k)) in
  let* p := check_shape d rows points in
  let* t := transform dtype L2 d p in
  let* tf := eval_points k t one 0 in
  scale_pdf L2 d (List.length tf) tf p.
(* meshgrid(x0, x1, ...) with its default indexing: the points in the order of the flattened arrays; the second argument varies slowest,
   then the first, then the others *)
Fixpoint cartesian (args : list (list R)) : list (list R) :=
  match args with [] => [[]] | x :: r => flat_map (fun a => map (cons a) (cartesian r)) x end.
Definition meshgrid (args : list (list R)) : list (list R) :=
  match args with
  | x :: y :: r => map (fun p => match p with b :: a :: q => a :: b :: q | _ => p end) (cartesian (y :: x :: r))
  | _ => cartesian args
  end.
(* kdetools.py:740-748 KDE._eval_grid, flattened *)
Definition eval_grid (k : kde) (args : list (list R)) : res (list R) := eval_points k (meshgrid args) (repeat 1 (List.length (dataset k))) 0.
(* kdetools.py:462-469 TKDE._eval_grid, flattened; the arguments are a list, so that their type is not imposed on the transformed ones *)
Definition tkde_eval_grid (L2 : option (list R)) (k : kde) (args : list (list R)) : res (list R) :=
  match L2 with
  | None => eval_grid k args
  | Some l => let d := List.length args in
              let* l := spread_L2 l d in
              if Nat.eqb (List.length l) d then
                let* tf := eval_grid k (map (fun q => map (fun x => transform1 x (snd q)) (fst q)) (combine args l)) in
                scale_pdf L2 d (List.length (match args with [x; _] => x | _ => last args [] end)) tf (meshgrid args)
              else Err IndexError
  end.
