(* Model of src/wafo/kdetools/gridding.py over exact real numbers: accum, accumsum and gridcount.
   Arrays with several axes are flat lists; the functions that give the flat position of an index are part of the model. *)
From Coq Require Import Reals.
From Verif Require Import Base PolyModel FilterModel.
Local Open Scope R_scope.

(* numpy l[i] for an integer i that may be negative *)
Definition getz {A} (l : list A) (i : Z) : res A :=
  if (0 <=? i)%Z then geti l (Z.to_nat i)
  else if (- Z.of_nat (List.length l) <=? i)%Z then geti l (Z.to_nat (Z.of_nat (List.length l) + i)) else Err IndexError.

(* ---- accum ------------------------------------------------------------------------------------------ *)
(* gridding.py:186 and 221 itertools.product of the ranges of the shape, in the order of the loops *)
Fixpoint cells (shape : list nat) : list (list nat) :=
  match shape with [] => [[]] | k :: shape' => flat_map (fun i => map (cons i) (cells shape')) (seq 0 k) end.
(* gridding.py:190-192 vals[indx].append(val): indices may be negative; too many are an IndexError, too few give an array, which cannot append *)
Fixpoint py_cell (shape : list nat) (ix : list Z) : res (list nat) :=
  match shape, ix with
  | [], [] => Ok []
  | k :: shape', i :: ix' =>
    let i' := if (i <? 0)%Z then (i + Z.of_nat k)%Z else i in
    if (0 <=? i')%Z && (i' <? Z.of_nat k)%Z then let* s := py_cell shape' ix' in Ok (Z.to_nat i' :: s) else Err IndexError
  | [], _ :: _ => Err IndexError
  | _ :: _, [] => Err AttributeError
  end.
Fixpoint same_cell (s t : list nat) : bool :=
  match s, t with [], [] => true | i :: s', j :: t' => (i =? j)%nat && same_cell s' t' | _, _ => false end.
Definition put {A} (vals : list nat -> list A) (s : list nat) (v : A) : list nat -> list A := fun t => if same_cell s t then vals t ++ [v] else vals t.
(* gridding.py:189-194 the loop over the entries of a; accmap and a are flattened in the order of the loop *)
Fixpoint collect {A} (shape : list nat) (accmap : list (list Z)) (a : list A) (vals : list nat -> list A) : res (list nat -> list A) :=
  match accmap, a with
  | ix :: accmap', v :: a' => let* s := py_cell shape ix in collect shape accmap' a' (put vals s v)
  | _, _ => Ok vals
  end.
(* gridding.py:208-211 1 + the largest index along each axis; the maximum of nothing is a ValueError *)
Fixpoint max_ix (m : list Z) (accmap : list (list Z)) : list Z :=
  match accmap with [] => m | ix :: l => max_ix (map (fun p => Z.max (fst p) (snd p)) (combine m ix)) l end.
Definition accum_shape (accmap : list (list Z)) : res (list nat) :=
  match accmap with [] => Err ValueError | ix :: l => let m := max_ix ix l in
    if existsb (fun i => i <? -1)%Z m then Err ValueError else Ok (map (fun i => Z.to_nat (1 + i)) m) end.
(* gridding.py:103-226 accum; the entries of the output in the order of product; the conversion to dtype is the identity here *)
Definition accum {A B} (accmap : list (list Z)) (a : list A) (func : list A -> B) (shape : option (list nat)) (fill : B) : res (list B) :=
  if negb (List.length accmap =? List.length a)%nat then Err ValueError
  else
    let* shape := match shape with Some s => Ok s | None => accum_shape accmap end in
    let* vals := collect shape accmap a (fun _ => []) in
    Ok (map (fun s => match vals s with [] => fill | l => func l end) (cells shape)).

(* ---- accumsum --------------------------------------------------------------------------------------- *)
(* np.bincount(idx, weights, minlength) *)
Definition bincount (idx : list Z) (w : list R) (n : nat) : res (list R) :=
  if negb (List.length idx =? List.length w)%nat then Err ValueError
  else if existsb (fun i => i <? 0)%Z idx then Err ValueError
  else
    let len := fold_right (fun i m => Nat.max (S (Z.to_nat i)) m) n idx in
    Ok (fold_left (fun c p => upd c (Z.to_nat (fst p)) (at_R c (Z.to_nat (fst p)) + snd p)) (combine idx w) (repeat 0 len)).
(* gridding.py:72-100 for a one dimensional accmap, flattened *)
Definition accumsum (accmap : list Z) (a : list R) (shape : option nat) : res (list R) :=
  match shape with
  | Some n => bincount accmap a n
  | None => match accmap with [] => Err ValueError | i :: l => bincount accmap a (Z.to_nat (1 + fold_left Z.max l i)) end
  end.

(* ---- gridcount -------------------------------------------------------------------------------------- *)
(* the product of w with y of size 1 or N; any other size is a ValueError, of the product or of bincount *)
Definition times_y (w y : list R) : res (list R) :=
  if (List.length y =? 1)%nat then Ok (map (fun v => v * at_R y 0) w)
  else if (List.length y =? List.length w)%nat then Ok (map (fun p => fst p * snd p) (combine w y)) else Err ValueError.
Definition add_arrays (a b : list R) : res (list R) :=
  if (List.length a =? List.length b)%nat then Ok (map (fun p => fst p + snd p) (combine a b)) else Err ValueError.
(* gridding.py:354-355 the step of a row and the index of the bin of v *)
Definition step (row : list R) : R := at_R row 1 - at_R row 0.
Definition bin (row : list R) (v : R) : Z := Int_part ((v - at_R row 0) / step row).
Definition prodR (l : list R) : R := fold_right Rmult 1 l.
Definition sumZ (l : list Z) : Z := fold_right Z.add 0%Z l.
(* gridding.py:262-266 *)
Definition gridcount_1d (data x y : list R) (w : R) (binx : list Z) (inc : nat) : res (list R) :=
  let* up := all_ok (map (fun b => getz x (b + 1)) binx) in
  let* w1 := times_y (map (fun p => fst p - snd p) (combine up data)) y in
  let* c1 := accumsum binx w1 (Some inc) in
  let* lo := all_ok (map (getz x) binx) in
  let* w2 := times_y (map (fun p => snd p - fst p) (combine lo data)) y in
  let* c2 := accumsum (map (fun b => b + 1)%Z binx) w2 (Some inc) in
  let* c := add_arrays c1 c2 in
  Ok (map (fun v => v / w) c).
(* gridding.py:18-27 bitget(ir, arange(d)) *)
Definition bitget (ir d : nat) : list Z := map (fun k => if Nat.testbit ir k then 1%Z else 0%Z) (seq 0 d).
(* gridding.py:239-244 the pairs (bt0[one], bt0[two]) in the order of the loops *)
Definition corners (d : nat) : list (list Z * list Z) :=
  flat_map (fun ir => let b := bitget ir d in let nb := map (fun v => 1 - v)%Z b in [(b, nb); (nb, b)]) (seq 0 (2 ^ (d - 1))).
(* gridding.py:247 the linear index of one data point *)
Definition corner_index (inc : nat) (binx one : list Z) : Z :=
  sumZ (map (fun p => (fst (snd p) + snd (snd p)) * Z.of_nat (inc ^ fst p))%Z (combine (seq 0 (List.length binx)) (combine binx one))).
(* gridding.py:248-250 abs(prod(x1[b2] - data)) of one data point *)
Definition corner_weight (inc : nat) (x1 : list R) (p : list R) (binx two : list Z) : res R :=
  let* v := all_ok (map (fun q => getz x1 (fst (snd q) + (snd (snd q) + Z.of_nat (inc * fst q)))) (combine (seq 0 (List.length binx)) (combine binx two))) in
  Ok (Rabs (prodR (map (fun q => fst q - snd q) (combine v p)))).
(* gridding.py:239-251 *)
Fixpoint corner_loop (inc nc : nat) (x1 : list R) (data : list (list R)) (binx : list (list Z)) (y : list R) (cs : list (list Z * list Z)) (c : list R) : res (list R) :=
  match cs with
  | [] => Ok c
  | (one, two) :: cs' =>
    let* ws := all_ok (map (fun q => corner_weight inc x1 (fst q) (snd q) two) (combine data binx)) in
    let* wy := times_y ws y in
    let* a := accumsum (map (fun b => corner_index inc b one) binx) wy (Some nc) in
    let* c := add_arrays c a in
    corner_loop inc nc x1 data binx y cs' c
  end.
(* gridding.py:229-259 the counts c / w before the change of shape *)
Definition gridcount_nd (data x : list (list R)) (y : list R) (w : R) (binx : list (list Z)) (inc : nat) : res (list R) :=
  let d := List.length x in let nc := (inc ^ d)%nat in
  let* c := corner_loop inc nc (concat x) data binx y (corners d) (repeat 0 nc) in
  Ok (map (fun v => v / w) c).
(* gridding.py:253-258 reshape(c, order='F') and exchange of the first two axes: the entry of the result with index js *)
Fixpoint forder (inc : nat) (js : list nat) : nat := match js with [] => 0 | j :: js' => j + inc * forder inc js' end.
Definition entry (inc : nat) (c : list R) (js : list nat) : R :=
  match js with j0 :: j1 :: r => at_R c (forder inc (j1 :: j0 :: r)) | _ => at_R c (forder inc js) end.
(* gridding.py:269-359; data is the list of the N points (columns of the array), x the list of the rows, all of size inc.
   A step of 0 gives bins that are not finite, whose integer values are out of range.  The side effect x.shape = -1 of
   line 263 on an array X with one row is not modelled *)
Definition gridcount (data x : list (list R)) (y : list R) : res (list R) :=
  let d := List.length x in let inc := List.length (hd [] x) in
  if existsb (fun p => negb (List.length p =? d)%nat) data then Err ValueError
  else if (List.length data =? 0)%nat then Err ValueError
  else if existsb (fun p => existsb (fun q => if Rlt_dec (snd q) (at_R (fst q) 0) then true else if Rlt_dec (at_R (fst q) (inc - 1)) (snd q) then true else false)
                                    (combine x p)) data then Err ValueError
  else if (inc <? 2)%nat then Err ValueError
  else if existsb (fun r => if Req_EM_T (step r) 0 then true else false) x then Err IndexError
  else
    let binx := map (fun p => map (fun q => bin (fst q) (snd q)) (combine x p)) data in
    let w := prodR (map step x) in
    if (d =? 1)%nat then gridcount_1d (map (fun p => at_R p 0) data) (hd [] x) y w (map (fun b => hd 0%Z b) binx) inc
    else gridcount_nd data x y w binx inc.
