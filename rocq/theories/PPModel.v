(* Model of src/wafo/interpolate.py:302-453 (class PPform) over exact real numbers.
   The coefficient matrix is stored column by column: one list of coefficients, highest
   degree first, per piece.  One evaluation point at a time (the code is elementwise). *)
From Coq Require Import Reals.
From Verif Require Import Base PolyModel.
Local Open Scope R_scope.

(* [lo] and [hi] are self.a and self.b; None is minus / plus infinity *)
Record pp := PP { cols : list (list R); breaks : list R; fill : R; lo : option R; hi : option R }.

(* ---- interpolate.py:333-346  __init__ (sort = False, a = b = None) ------------------- *)
Definition pp_new (cs : list (list R)) (bs : list R) (fl : R) : res pp :=
  match bs with
  | [] => Err IndexError
  | b0 :: _ => Ok (PP cs bs fl (Some b0) (Some (last bs 0)))
  end.

(* ---- interpolate.py:348-367  __call__ ------------------------------------------------ *)
(* np.searchsorted(bs, x) on a sorted array: the number of entries below x *)
Fixpoint count_below (bs : list R) (x : R) : nat :=
  match bs with [] => 0%nat | b :: bs' => ((if Rlt_dec b x then 1 else 0) + count_below bs' x)%nat end.
(* searchsorted(breaks[:-1], x) - 1, clipped below at 0; the clip above at len(breaks) is
   never reached *)
Definition pp_index (bs : list R) (x : R) : nat := (count_below (removelast bs) x - 1)%nat.
(* v = pp[0, i]; for j in range(1, order): v = dx * v + pp[j, i] *)
Definition horner_col (c : list R) (dx : R) : res R :=
  match c with [] => Err IndexError | c0 :: c' => Ok (fold_left (fun v ci => dx * v + ci) c' c0) end.
Definition inside (p : pp) (x : R) : bool :=
  (match lo p with None => true | Some a => if Rle_dec a x then true else false end) &&
  (match hi p with None => true | Some b => if Rle_dec x b then true else false end).
(* res = np.empty_like(xnew): [store] is the assignment into an array of the type of xnew *)
Definition pp_call_as (store : R -> R) (p : pp) (x : R) : res R :=
  if inside p x then
    let i := pp_index (breaks p) x in
    let* b := geti (breaks p) i in
    let* c := geti (cols p) i in
    let* v := horner_col c (x - b) in Ok (store v)
  else Ok (store (fill p)).
Definition pp_call : pp -> R -> res R := pp_call_as (fun v => v).       (* xnew of floats *)
Definition pp_call_int (p : pp) (x : Z) : res R := pp_call_as trunc p (IZR x).   (* of integers *)

(* ---- interpolate.py:424-431  derivative ---------------------------------------------- *)
Definition pp_derivative (p : pp) : res pp := pp_new (map polyder1 (cols p)) (breaks p) (fill p).

(* ---- interpolate.py:433-453  integrate ----------------------------------------------- *)
Fixpoint rdiff (l : list R) : list R :=
  match l with a :: ((b :: _) as t) => (b - a) :: rdiff t | _ => [] end.
Fixpoint cumsum (acc : R) (l : list R) : list R :=
  match l with [] => [] | a :: l' => (acc + a) :: cumsum (acc + a) l' end.
Definition set_last (l : list R) (v : R) : list R := removelast l ++ [v].
(* vv = xs * cof[0]; for i in range(1, k): vv = xs * (vv + cof[i]), for one piece; k = order
   is the number of rows of cof minus one *)
Definition right_value (xs : R) (cof : list R) : R :=
  match removelast cof with [] => 0 | c0 :: cs => fold_left (fun vv c => xs * (vv + c)) cs (xs * c0) end.
Definition pp_integrate (p : pp) : res pp :=
  let cof := map (fun c => polyint1 c 0) (cols p) in
  let pieces := (List.length (breaks p) - 1)%nat in
  let cof' :=
    if (1 <? pieces)%nat then
      let xs := rdiff (removelast (breaks p)) in
      let vv := map2 right_value xs cof in
      map2 set_last cof (cumsum 0 (0 :: vv))
    else cof in
  pp_new cof' (breaks p) (fill p).

(* ---- interpolate.py:369-422  linear_extrapolate --------------------------------------- *)
Definition order (p : pp) : nat := List.length (hd [] (cols p)).
Definition pp_linear_extrapolate (p : pp) : res pp :=
  if (order p <=? 2)%nat then Ok p
  else
    let bs := breaks p in
    let* b0 := geti bs 0 in
    let bN := last bs 0 in
    let* bN1 := (if (List.length bs <? 2)%nat then Err IndexError else Ok (at_R bs (List.length bs - 2))) in
    let newbreaks := (b0 + -1) :: bs ++ [bN + 1] in
    let dx1 := (b0 + -1) - b0 in
    let dxN := bN - bN1 in
    let* a_n := polyreloc (last (cols p) []) (- dxN) 0 in
    let a_n := repeat 0 (order p - 2) ++ skipn (order p - 2) a_n in
    let* a_1 := polyreloc (skipn (order p - 2) (hd [] (cols p))) (- dx1) 0 in
    let a_1 := repeat 0 (order p - 2) ++ a_1 in
    Ok (PP (a_1 :: cols p ++ [a_n]) newbreaks 0 None None).
