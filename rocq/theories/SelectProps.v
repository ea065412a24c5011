(* C66, C67, C72: selection helpers *)
From Coq Require Import Permutation.
From Verif Require Import Base SelectModel SelectSpec SelectProofs.
Local Open Scope nat_scope.

(* C66: lfind yields all positions of the needle in increasing order, or the first maxiter of them *)
Theorem c66_lfind_all : forall A (eqb : A -> A -> bool) l v, lfind eqb l v None = Ok (positions eqb l v).
Proof. intros. exact (lfind_all eqb l v). Qed.
Print Assumptions c66_lfind_all.
Theorem c66_lfind_first : forall A (eqb : A -> A -> bool) l v m,
  lfind eqb l v (Some m) = Ok (firstn (Z.to_nat m) (positions eqb l v)).
Proof. intros. exact (lfind_some eqb l v m). Qed.
Print Assumptions c66_lfind_first.
Example c66_lfind_case : lfind Z.eqb [1; 3; 4; 3; 10; 3; 1]%Z 3%Z (Some 2%Z) = Ok [1; 3] /\
  positions Z.eqb [1; 3; 4; 3; 10; 3; 1]%Z 3%Z = [1; 3; 5].
Proof. split; reflexivity. Qed.

(* C66: narg_smallest(arr, n) are min(n, size) distinct positions, in ascending order of value, and no
   other position holds a smaller value - whichever argsort the library returns *)
Theorem c66_narg_smallest : forall arr ind n, is_argsort arr ind -> (0 <= n)%Z ->
  List.length (narg_smallest ind n) = Nat.min (Z.to_nat n) (List.length arr) /\
  NoDup (narg_smallest ind n) /\
  (forall i, In i (narg_smallest ind n) -> i < List.length arr) /\
  (forall i j, i < j -> j < List.length (narg_smallest ind n) ->
     (nth (nth i (narg_smallest ind n) 0%nat) arr 0 <= nth (nth j (narg_smallest ind n) 0%nat) arr 0)%Z) /\
  (forall i j, In i (narg_smallest ind n) -> j < List.length arr -> ~ In j (narg_smallest ind n) ->
     (nth i arr 0 <= nth j arr 0)%Z).
Proof. exact narg_ok. Qed.
Print Assumptions c66_narg_smallest.
(* with a negative n it leaves out the -n largest *)
Theorem c66_narg_smallest_negative : forall arr ind n, is_argsort arr ind -> (n < 0)%Z ->
  narg_smallest ind n = narg_smallest ind (Z.max 0 (Z.of_nat (List.length arr) + n)).
Proof. exact narg_negative. Qed.
Print Assumptions c66_narg_smallest_negative.
Example c66_narg_case : is_argsort [3; 1; 2]%Z [1; 2; 0] /\ narg_smallest [1; 2; 0] 2 = [1; 2].
Proof.
  split; [|reflexivity]. split.
  - cbn. apply Permutation_sym. eapply perm_trans; [apply (Permutation_cons_append [1; 2] 0)|reflexivity].
  - intros i j H1 H2. cbn in H2. destruct j as [|[|[|j]]]; try lia; destruct i as [|[|i]]; try lia; cbn; lia.
Qed.

(* C66: argsreduce keeps of each argument (broadcast if it is a scalar) the elements where the condition
   holds, so that all results have the same length *)
Theorem c66_argsreduce : forall A cond (args es : list (list A)),
  Forall2 (broadcasts (List.length cond)) args es -> argsreduce cond args = Ok (map (selected cond) es).
Proof. intros A. exact argsreduce_ok. Qed.
Print Assumptions c66_argsreduce.
Theorem c66_argsreduce_lengths : forall A cond (arr : list A), List.length arr = List.length cond ->
  List.length (selected cond arr) = count_occ Bool.bool_dec cond true.
Proof. intros A. exact selected_length. Qed.
Print Assumptions c66_argsreduce_lengths.
Theorem c66_argsreduce_mismatch : forall A cond (pre post : list (list A)) a,
  Forall (fun b => List.length b = List.length cond) pre ->
  List.length a <> List.length cond -> List.length a <> 1 -> List.length cond <> 1 ->
  argsreduce cond (pre ++ a :: post) = Err ValueError.
Proof. intros A. exact argsreduce_mismatch. Qed.
Print Assumptions c66_argsreduce_mismatch.
Example c66_argsreduce_case : argsreduce [true; false; true] [[1; 2; 3]; [7]] = Ok [[1; 3]; [7; 7]] /\
  Forall2 (broadcasts 3) [[1; 2; 3]; [7]] [[1; 2; 3]; [7; 7; 7]].
Proof. split; [reflexivity|]. constructor; [left; auto|]. constructor; [right; exists 7; auto|constructor]. Qed.

(* C67: at each element piecewise evaluates the last function whose condition holds there; where none
   holds the result is the fill value, or the extra last function if there is one.  [store] is the
   conversion to the result's type, the identity for floats *)
Theorem c67_piecewise : forall A B (store : B -> B) conds (funs : list (branch A B)) vals xs fill dx d,
  Forall (fun c => List.length c = List.length xs) conds -> Forall2 branch_value funs vals ->
  List.length conds = List.length funs ->
  exists r, piecewise store conds funs xs fill = Ok r /\ List.length r = List.length xs /\
    forall i, i < List.length xs ->
      (exists k, k < List.length conds /\ last_true conds i k /\ nth i r d = store (nth k vals (fun _ => d) (nth i xs dx))) \/
      (none_true conds i /\ nth i r d = store fill).
Proof. intros A B. exact piecewise_ok. Qed.
Print Assumptions c67_piecewise.
Theorem c67_piecewise_otherwise : forall A B (store : B -> B) conds (funs : list (branch A B)) f vals v xs fill dx d,
  conds <> [] -> Forall (fun c => List.length c = List.length xs) conds -> Forall2 branch_value funs vals -> branch_value f v ->
  List.length conds = List.length funs ->
  exists r, piecewise store conds (funs ++ [f]) xs fill = Ok r /\ List.length r = List.length xs /\
    forall i, i < List.length xs ->
      (exists k, k < List.length conds /\ last_true conds i k /\ nth i r d = store (nth k vals (fun _ => d) (nth i xs dx))) \/
      (none_true conds i /\ nth i r d = store (v (nth i xs dx))).
Proof. intros A B. exact piecewise_extra. Qed.
Print Assumptions c67_piecewise_otherwise.
Theorem c67_piecewise_count : forall A B (store : B -> B) conds (funs : list (branch A B)) xs fill,
  List.length funs <> List.length conds -> List.length funs <> S (List.length conds) ->
  piecewise store conds funs xs fill = Err ValueError.
Proof. intros A B. exact piecewise_count. Qed.
Print Assumptions c67_piecewise_count.
Example c67_piecewise_case :
  piecewise (fun v => v) [[false; true; true]; [false; false; true]] [Fun (map Z.opp); Const 3%Z; Fun (map (Z.mul 10))] [4; 5; 6]%Z 0%Z
  = Ok [40; -5; 3]%Z /\ branch_value (Fun (map Z.opp)) Z.opp /\ branch_value (@Const Z Z 3%Z) (fun _ => 3%Z).
Proof. split; [reflexivity|]. split; [intros l; reflexivity|intros x; reflexivity]. Qed.

(* C67: lazywhere gives f where the condition holds, and the fill value or f2 elsewhere *)
Theorem c67_lazywhere_fill : forall A B (store : B -> B) cond (xs : list A) f g v nan dx d,
  List.length cond = List.length xs -> (forall l, f l = map g l) ->
  exists r, lazywhere store cond xs f (Some v) nan None = Ok r /\ List.length r = List.length xs /\
    forall i, i < List.length xs -> nth i r d = if nth i cond false then store (g (nth i xs dx)) else v.
Proof. intros A B. exact lazywhere_fill. Qed.
Print Assumptions c67_lazywhere_fill.
Theorem c67_lazywhere_f2 : forall A B (store : B -> B) cond (xs : list A) f g f2 g2 nan dx d,
  List.length cond = List.length xs -> (forall l, f l = map g l) -> (forall l, f2 l = map g2 l) ->
  exists r, lazywhere store cond xs f None nan (Some f2) = Ok r /\ List.length r = List.length xs /\
    forall i, i < List.length xs -> nth i r d = store (if nth i cond false then g (nth i xs dx) else g2 (nth i xs dx)).
Proof. intros A B. exact lazywhere_both. Qed.
Print Assumptions c67_lazywhere_f2.
Theorem c67_lazywhere_arguments : forall A B (store : B -> B) cond (xs : list A) f nan v f2,
  lazywhere store cond xs f None nan None = Err ValueError /\ lazywhere store cond xs f (Some v) nan (Some f2) = Err ValueError.
Proof. intros A B. exact lazywhere_err. Qed.
Print Assumptions c67_lazywhere_arguments.
(* the result takes the type of the fill value: with an integer fill value the values of f lose their
   fractions (numbers counted in halves: f returns 3/2 and the result holds 1) *)
Theorem c67_lazywhere_integer_fill_refuted :
  exists cond (xs : list Z) (g : Z -> Z) r,
    lazywhere cast_halves cond xs (map g) (Some 0%Z) 0%Z None = Ok r /\
    nth 0 cond false = true /\ nth 0 r 0%Z <> g (nth 0 xs 0%Z).
Proof. exists [true], [3%Z], (fun x => x), [2%Z]. repeat split. discriminate. Qed.
Print Assumptions c67_lazywhere_integer_fill_refuted.
Example c67_lazywhere_case : lazywhere (fun v : Z => v) [true; false] [4; 5]%Z (map Z.opp) None 0%Z (Some (map (Z.mul 10))) = Ok [-4; 50]%Z.
Proof. reflexivity. Qed.

(* C67: lazyselect takes the value of the last choice whose condition holds, the default where none does *)
Theorem c67_lazyselect : forall A B conds (choices : list (list A -> list B)) vals xs default dx d,
  Forall (fun c => List.length c = List.length xs) conds -> Forall2 (fun f g => forall l, f l = map g l) choices vals ->
  List.length conds = List.length choices ->
  exists r, lazyselect conds choices xs default = Ok r /\ List.length r = List.length xs /\
    forall i, i < List.length xs ->
      (exists k, k < List.length conds /\ last_true conds i k /\ nth i r d = nth k vals (fun _ => d) (nth i xs dx)) \/
      (none_true conds i /\ nth i r d = default).
Proof. intros A B. exact lazyselect_ok. Qed.
Print Assumptions c67_lazyselect.
(* so it does not mimic np.select, which takes the first *)
Theorem c67_lazyselect_first_refuted :
  exists conds (fs : list (Z -> Z)) (xs r : list Z) k,
    lazyselect conds (map (@map Z Z) fs) xs 0%Z = Ok r /\
    nth 0 (nth k conds []) false = true /\ (forall k', k' < k -> nth 0 (nth k' conds []) false = false) /\
    nth 0 r 0%Z <> nth k fs (fun x => x) (nth 0 xs 0%Z).
Proof.
  exists [[true]; [true]], [Z.opp; Z.mul 10]%Z, [4%Z], [40%Z], 0. repeat split; [intros; lia|discriminate].
Qed.
Print Assumptions c67_lazyselect_first_refuted.

(* C72: sub_dict_select keeps exactly the entries whose key is listed *)
Theorem c72_sub_dict_select : forall K V (keqb : K -> K -> bool), (forall a b, keqb a b = true <-> a = b) ->
  forall (d : list (K * V)) keys k,
  (In k keys -> lookup keqb (sub_dict_select keqb d keys) k = lookup keqb d k) /\
  (~ In k keys -> lookup keqb (sub_dict_select keqb d keys) k = None).
Proof. intros K V keqb E. exact (sub_lookup keqb E). Qed.
Print Assumptions c72_sub_dict_select.
(* C72: parse_kwargs keeps the keys of the options in their order, and takes over every keyword that is one of them *)
Theorem c72_parse_kwargs : forall K V (keqb : K -> K -> bool), (forall a b, keqb a b = true <-> a = b) ->
  forall (options kwargs : list (K * V)),
  map fst (parse_kwargs keqb options kwargs) = map fst options /\
  forall k, In k (map fst options) ->
    lookup keqb (parse_kwargs keqb options kwargs) k =
    match lookup keqb kwargs k with Some v => Some v | None => lookup keqb options k end.
Proof. intros K V keqb E. exact (parse_kwargs_ok keqb E). Qed.
Print Assumptions c72_parse_kwargs.
Example c72_case : parse_kwargs Nat.eqb [(1, 10); (2, 20)] [(2, 5); (3, 6)] = [(1, 10); (2, 5)] /\ (forall a b, Nat.eqb a b = true <-> a = b).
Proof. split; [reflexivity|exact Nat.eqb_eq]. Qed.
