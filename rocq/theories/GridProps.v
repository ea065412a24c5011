From Coq Require Import Reals Lra Lia Permutation.
From Verif Require Import Base GridModel GridSpec GridProofs GridProofs2 GridProofs5 GridProofs6.
Local Open Scope R_scope.

(* ---- C51: linear binning ---- *)
(* the count at every node of a grid with d dimensions is the weighted sum of the shares of the observations *)
Theorem c51_counts : forall n g data y, (2 <= n)%nat -> g <> [] -> Forall (fun q => 0 < snd q) g -> data <> [] ->
  (forall p, In p data -> inside n g p) -> List.length y = List.length data ->
  exists c, gridcount data (nodes n g) y = Ok c /\ List.length c = (n ^ List.length g)%nat /\
    forall idx, List.length idx = List.length g -> Forall (fun i => (i < n)%nat) idx ->
      entry n c (meshgrid_order idx) = sumR (map (fun q => snd q * share g (fst q) idx) (combine data y)).
Proof. exact gridcount_ok. Qed.
Print Assumptions c51_counts.
Example c51_case : let g := [(0, 1); (5, 1/2)] in let data := [[1/3; 5]; [2; 27/5]; [1; 5]] in
  exists c, gridcount data (nodes 4 g) [1; 2; 3] = Ok c.
Proof.
  cbv zeta. destruct (c51_counts 4 [(0, 1); (5, 1/2)] [[1/3; 5]; [2; 27/5]; [1; 5]] [1; 2; 3]) as (c & E & _); [lia|discriminate|repeat constructor; cbn; lra|discriminate| |reflexivity|now exists c].
  intros p [<-|[<-|[<-|[]]]]; repeat constructor; unfold node; cbn; lra.
Qed.
(* the counts add up to the sum of the responses *)
Theorem c51_mass : forall n g data y c, (2 <= n)%nat -> g <> [] -> Forall (fun q => 0 < snd q) g ->
  (forall p, In p data -> inside n g p) -> List.length y = List.length data ->
  gridcount data (nodes n g) y = Ok c -> grid_sum (List.length g) n (fun idx => entry n c (meshgrid_order idx)) = sumR y.
Proof. exact gridcount_mass. Qed.
Print Assumptions c51_mass.
(* first and mixed moments are preserved *)
Theorem c51_moments : forall n g data y c ab, (2 <= n)%nat -> g <> [] -> Forall (fun q => 0 < snd q) g ->
  (forall p, In p data -> inside n g p) -> List.length y = List.length data -> List.length ab = List.length g ->
  gridcount data (nodes n g) y = Ok c ->
  grid_sum (List.length g) n (fun idx => entry n c (meshgrid_order idx) * multilinear ab (coordinates g idx)) =
  sumR (map (fun q => snd q * multilinear ab (fst q)) (combine data y)).
Proof. exact gridcount_moment. Qed.
Print Assumptions c51_moments.
Theorem c51_nonnegative : forall n g data y c, (2 <= n)%nat -> g <> [] -> Forall (fun q => 0 < snd q) g ->
  (forall p, In p data -> inside n g p) -> List.length y = List.length data -> (forall v, In v y -> 0 <= v) ->
  gridcount data (nodes n g) y = Ok c ->
  forall idx, List.length idx = List.length g -> Forall (fun i => (i < n)%nat) idx -> 0 <= entry n c (meshgrid_order idx).
Proof. exact gridcount_nonneg. Qed.
Print Assumptions c51_nonnegative.
(* a scalar response is the same as the response repeated *)
Theorem c51_scalar : forall data x y0, gridcount data x [y0] = gridcount data x (repeat y0 (List.length data)).
Proof. exact gridcount_scalar. Qed.
Print Assumptions c51_scalar.

(* ---- C52: data on the upper edge ---- *)
(* although data on the edge pass the range check, an observation on the upper edge of the last dimension is an IndexError, always *)
Theorem c52_upper_edge_refuted : forall n g q data p v y, (2 <= n)%nat -> Forall (fun q => 0 < snd q) (g ++ [q]) ->
  (forall p, In p data -> Forall2 (fun q v => node q 0 <= v <= node q (n - 1)) (g ++ [q]) p) ->
  In (p ++ [v]) data -> v = node q (n - 1) -> gridcount data (nodes n (g ++ [q])) y = Err IndexError.
Proof. exact gridcount_edge. Qed.
Print Assumptions c52_upper_edge_refuted.
Example c52_case : gridcount [[1]; [2]; [1/2]] (nodes 3 [(0, 1)]) [1] = Err IndexError.
Proof.
  apply (c52_upper_edge_refuted 3 [] (0, 1) _ [] 2); [lia|repeat constructor; cbn; lra| |right; now left|unfold node; cbn; lra].
  intros p [<-|[<-|[<-|[]]]]; repeat constructor; unfold node; cbn; lra.
Qed.
(* one on the upper edge of another dimension can be counted twice *)
Theorem c52_double_count_refuted : exists c, gridcount [[2; 0]] [[0; 1; 2]; [0; 1; 2]] [1] = Ok c /\ entry 3 c (meshgrid_order [2; 0]%nat) = 2.
Proof. exact gridcount_double. Qed.
Print Assumptions c52_double_count_refuted.

(* ---- C53: accum and accumsum ---- *)
(* every cell holds the reduction of exactly the entries whose index denotes it, in the order of the data, or the fill value *)
Theorem c53_groups : forall A B accmap (a : list A) (func : list A -> B) shape fill out, accum accmap a func (Some shape) fill = Ok out ->
  List.length out = fold_right Nat.mul 1%nat shape /\
  forall cell l, Forall2 lt cell shape -> group shape cell accmap a l ->
    nth_error out (position shape cell) = Some (match l with [] => fill | _ => func l end).
Proof. exact @accum_groups. Qed.
Print Assumptions c53_groups.
(* it succeeds exactly when the sizes agree and every index denotes a cell *)
Theorem c53_total : forall A B accmap (a : list A) (func : list A -> B) shape fill,
  (exists out, accum accmap a func (Some shape) fill = Ok out) <->
  List.length accmap = List.length a /\ forall ix, In ix accmap -> exists cell, denotes shape ix cell.
Proof. exact @accum_total. Qed.
Print Assumptions c53_total.
(* collected in lists, every entry of a is in exactly one cell *)
Theorem c53_partition : forall A accmap (a : list A) shape out, accum accmap a (fun l => l) (Some shape) [] = Ok out -> Permutation (concat out) a.
Proof. exact @accum_partition. Qed.
Print Assumptions c53_partition.
(* sums preserve the grand total *)
Theorem c53_sum : forall accmap a shape out, accum accmap a sumR (Some shape) 0 = Ok out -> sumR out = sumR a.
Proof. exact accum_sum. Qed.
Print Assumptions c53_sum.
(* without a shape the smallest one that holds all indices is used *)
Theorem c53_default_shape : forall A B accmap (a : list A) (func : list A -> B) fill d, accmap <> [] -> List.length accmap = List.length a ->
  (forall ix, In ix accmap -> List.length ix = d /\ forall i, In i ix -> (0 <= i)%Z) ->
  exists shape out, accum accmap a func None fill = Ok out /\ accum accmap a func (Some shape) fill = Ok out /\ List.length shape = d /\
    forall k, (k < d)%nat -> (forall ix, In ix accmap -> (nth k ix 0 < Z.of_nat (nth k shape 0%nat))%Z) /\
                             exists ix, In ix accmap /\ (nth k ix 0 = Z.of_nat (nth k shape 0%nat) - 1)%Z.
Proof. exact @accum_default. Qed.
Print Assumptions c53_default_shape.
Example c53_case : accum [[0; 1]; [1; -1]; [0; 1]; [0; 0]]%Z [7; 8; 9; 6]%nat (fun l => l) (Some [2; 2]%nat) [100%nat] = Ok [[6]; [7; 9]; [100]; [8]]%nat /\
  denotes [2; 2]%nat [1; -1]%Z [1; 1]%nat.
Proof. split; [reflexivity|]. repeat (constructor; [lia|reflexivity|]). constructor. Qed.
(* accumsum is accum with sums when the indices are non-negative and smaller than the shape *)
Theorem c53_accumsum : forall idx a n, List.length idx = List.length a -> (forall i, In i idx -> (0 <= i < Z.of_nat n)%Z) ->
  exists c, accumsum idx a (Some n) = Ok c /\ accum (map (fun i => [i]) idx) a sumR (Some [n]) 0 = Ok c.
Proof. exact accumsum_accum. Qed.
Print Assumptions c53_accumsum.
(* with a shape that is too small accumsum returns a longer array where accum raises *)
Theorem c53_shape_refuted : accumsum [5%Z] [1] (Some 2%nat) = Ok [0; 0; 0; 0; 0; 0 + 1] /\ accum [[5%Z]] [1] sumR (Some [2%nat]) 0 = Err IndexError.
Proof. exact accumsum_longer. Qed.
Print Assumptions c53_shape_refuted.
