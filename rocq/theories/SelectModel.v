(* Model of small selection helpers of src/wafo/misc.py: lfind, narg_smallest, argsreduce,
   piecewise, lazywhere, lazyselect, sub_dict_select, parse_kwargs. *)
From Verif Require Import Base.
Local Open Scope nat_scope.

(* haystack.index(needle, start): None stands for the ValueError *)
Fixpoint index_from {A} (eqb : A -> A -> bool) (needle : A) (l : list A) (pos start : nat) : option nat :=
  match l with
  | [] => None
  | a :: l' => if (start <=? pos) && eqb a needle then Some pos else index_from eqb needle l' (S pos) start
  end.
(* misc.py:82-90: the values yielded from the point where [left] (None: inf) rounds may still be made;
   [start] is ix + 1; a round that yields moves start past the index found *)
Fixpoint lfind_loop {A} (eqb : A -> A -> bool) (fuel : nat) (l : list A) (needle : A) (left : option Z) (start : nat)
  : res (list nat) :=
  match fuel with
  | O => Err OutOfFuel
  | S fuel' =>
    let go := match left with None => true | Some m => (0 <? m)%Z end in
    if go then
      match index_from eqb needle l 0 start with
      | None => Ok []
      | Some ix => let* r := lfind_loop eqb fuel' l needle (option_map Z.pred left) (S ix) in Ok (ix :: r)
      end
    else Ok []
  end.
(* misc.py:58-90 lfind; list(lfind(haystack, needle, maxiter)) *)
Definition lfind {A} (eqb : A -> A -> bool) (l : list A) (needle : A) (maxiter : option Z) : res (list nat) :=
  lfind_loop eqb (S (List.length l)) l needle maxiter 0.

(* misc.py:504-518 narg_smallest: argsort()[:n]; the library's argsort result is the parameter [ind] *)
Definition py_upto {A} (l : list A) (n : Z) : list A :=
  if (n <? 0)%Z then firstn (Z.to_nat (Z.of_nat (List.length l) + n)) l else firstn (Z.to_nat n) l.
Definition narg_smallest (ind : list nat) (n : Z) : list nat := py_upto ind n.

(* np.extract(cond, arr) for 1-D arguments: compress(ravel(cond), ravel(arr)); a True beyond the end
   of arr raises *)
Fixpoint extract {A} (cond : list bool) (arr : list A) : res (list A) :=
  match cond, arr with
  | [], _ => Ok []
  | b :: c', a :: r' => let* t := extract c' r' in Ok (if b then a :: t else t)
  | b :: c', [] => if b then Err IndexError else extract c' (@nil A)
  end.
(* arr1 * (condition == condition): broadcasting of two 1-D arrays *)
Definition expand {A} (n : nat) (arr : list A) : res (list A) :=
  if List.length arr =? n then Ok arr
  else match arr with
       | [a] => Ok (repeat a n)
       | _ => if n =? 1 then Ok arr else Err ValueError
       end.
(* misc.py:1793-1836 argsreduce for a 1-D boolean condition and 1-D arguments (a scalar is an array
   of one element) *)
Fixpoint argsreduce {A} (cond : list bool) (args : list (list A)) : res (list (list A)) :=
  match args with
  | [] => Ok []
  | a :: args' =>
    let* e := expand (List.length cond) a in
    let* r := extract cond e in
    let* rs := argsreduce cond args' in
    Ok (r :: rs)
  end.

(* np.place(out, mask, vals): the i-th True entry receives vals[i mod len vals]; [store] is what the
   assignment into the array's type does to a value *)
Fixpoint place_loop {B} (store : B -> B) (out : list B) (mask : list bool) (all vals : list B) : list B :=
  match out, mask with
  | o :: out', true :: mask' =>
    match vals with
    | v :: vals' => store v :: place_loop store out' mask' all vals'
    | [] => match all with
            | v :: vals' => store v :: place_loop store out' mask' all vals'
            | [] => o :: place_loop store out' mask' all []
            end
    end
  | o :: out', false :: mask' => o :: place_loop store out' mask' all vals
  | _, _ => out
  end.
Definition place {B} (store : B -> B) (out : list B) (mask : list bool) (vals : list B) : res (list B) :=
  if negb (List.length out =? List.length mask) then Err ValueError
  else match vals with
       | [] => if existsb (fun b => b) mask then Err ValueError else Ok out
       | _ => Ok (place_loop store out mask vals vals)
       end.

(* a function of the broadcast arrays (evaluated on the extracted elements, one row per element) or a
   scalar *)
Inductive branch (A B : Type) := Fun (f : list A -> list B) | Const (v : B).
Arguments Fun {A B} f.
Arguments Const {A B} v.

(* misc.py:209-217 otherwise_condition *)
Fixpoint or_lists (a b : list bool) : list bool :=
  match a, b with x :: a', y :: b' => (x || y) :: or_lists a' b' | _, _ => [] end.
Definition otherwise (conds : list (list bool)) : list bool :=
  match conds with [] => [] | c :: cs => map negb (fold_left or_lists cs c) end.
(* misc.py:249-257 the loop over the conditions *)
Fixpoint piecewise_loop {A B} (store : B -> B) (conds : list (list bool)) (funs : list (branch A B)) (xs : list A) (out : list B)
  : res (list B) :=
  match conds, funs with
  | c :: conds', f :: funs' =>
    let* out' :=
      if existsb (fun b => b) c then
        match f with
        | Fun g => let* t := extract c xs in place store out c (g t)
        | Const v => Ok (map (fun p => if fst p : bool then store v else snd p) (combine c out))
        end
      else Ok out in
    piecewise_loop store conds' funs' xs out'
  | _, _ => Ok out
  end.
(* misc.py:125-258 piecewise; xs are the elements of the broadcast arrays xi, [n] the common length,
   the conditions are broadcast to that length already *)
Definition piecewise {A B} (store : B -> B) (conds : list (list bool)) (funs : list (branch A B)) (xs : list A) (fill : B)
  : res (list B) :=
  if (List.length conds =? List.length funs) || (S (List.length conds) =? List.length funs) then
    let conds' := if S (List.length conds) =? List.length funs then conds ++ [otherwise conds] else conds in
    piecewise_loop store conds' funs xs (repeat (store fill) (List.length xs))
  else Err ValueError.

(* misc.py:261-295 lazywhere; the type of the result is that of [fill], so [store] depends on it:
   identity for a float (nan when f2 is given), truncation for an integer *)
Definition lazywhere {A B} (store : B -> B) (cond : list bool) (xs : list A) (f : list A -> list B) (fill : option B) (nan : B)
  (f2 : option (list A -> list B)) : res (list B) :=
  match fill, f2 with
  | None, None => Err ValueError
  | Some _, Some _ => Err ValueError
  | _, _ =>
    let fv := match fill with Some v => v | None => nan end in
    let* t := extract cond xs in
    let* out := place store (repeat fv (List.length xs)) cond (f t) in
    match f2 with
    | None => Ok out
    | Some g => let* t2 := extract (map negb cond) xs in place store out (map negb cond) (g t2)
    end
  end.

(* misc.py:298-335 lazyselect; `cond is False` never holds for an array, so no condition is skipped *)
Fixpoint lazyselect_loop {A B} (conds : list (list bool)) (choices : list (list A -> list B)) (xs : list A) (out : list B)
  : res (list B) :=
  match conds, choices with
  | [], _ => Ok out
  | c :: conds', f :: choices' =>
    let* t := extract c xs in
    let* out' := place (fun v => v) out c (f t) in
    lazyselect_loop conds' choices' xs out'
  | _ :: _, [] => Err IndexError
  end.
Definition lazyselect {A B} (conds : list (list bool)) (choices : list (list A -> list B)) (xs : list A) (default : B) : res (list B) :=
  lazyselect_loop conds choices xs (repeat default (List.length xs)).

(* ---- dictionaries: association lists in insertion order ----------------------------------------- *)
Fixpoint lookup {K V} (keqb : K -> K -> bool) (d : list (K * V)) (k : K) : option V :=
  match d with [] => None | (k', v) :: d' => if keqb k k' then Some v else lookup keqb d' k end.
(* d[k] = v *)
Fixpoint assign {K V} (keqb : K -> K -> bool) (d : list (K * V)) (k : K) (v : V) : list (K * V) :=
  match d with
  | [] => [(k, v)]
  | (k', v') :: d' => if keqb k k' then (k', v) :: d' else (k', v') :: assign keqb d' k v
  end.
Definition update {K V} (keqb : K -> K -> bool) (d e : list (K * V)) : list (K * V) :=
  fold_left (fun d p => assign keqb d (fst p) (snd p)) e d.
(* misc.py:748-768 sub_dict_select *)
Definition sub_dict_select {K V} (keqb : K -> K -> bool) (d : list (K * V)) (keys : list K) : list (K * V) :=
  fold_left (fun acc k => match lookup keqb d k with Some v => assign keqb acc k v | None => acc end) keys [].
(* misc.py:771-790 parse_kwargs: the returned dictionary is the caller's, updated in place *)
Definition parse_kwargs {K V} (keqb : K -> K -> bool) (options kwargs : list (K * V)) : list (K * V) :=
  let newopts := sub_dict_select keqb kwargs (map fst options) in
  if 0 <? List.length newopts then update keqb options newopts else options.
