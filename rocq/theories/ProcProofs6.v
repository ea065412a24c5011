From Coq Require Import Reals Lra Lia Psatz Permutation.
From Coquelicot Require Import Coquelicot.
From Verif Require Import Base PolyModel FilterModel GridModel WaveModel KdeModel ProcModel ProcSpec ProcProofs ProcProofs2 ProcProofs3 ProcProofs4 ProcProofs5.
Local Open Scope R_scope.

(* ---- the documented formulas are the chain rule ---- *)
Lemma chain_rule_derive : forall (F X : nat -> R -> R) t k, (k < 4)%nat ->
  (forall j, (j <= k)%nat -> forall v, is_derive (F j) v (F (S j) v)) -> (forall j, (j <= k)%nat -> forall v, is_derive (X j) v (X (S j) v)) ->
  is_derive (fun u => chain_rule (fun j => F j (X 0%nat u)) (fun j => X j u) k) t (chain_rule (fun j => F j (X 0%nat t)) (fun j => X j t) (S k)).
Proof.
  intros F X t k Hk HF HX.
  assert (EF : forall j, (j <= k)%nat -> forall v, ex_derive (F j) v) by (intros j Hj v; eexists; apply HF; exact Hj).
  assert (EX : forall j, (j <= k)%nat -> forall v, ex_derive (X j) v) by (intros j Hj v; eexists; apply HX; exact Hj).
  assert (DF : forall j, (j <= k)%nat -> forall v, Derive (F j) v = F (S j) v) by (intros j Hj v; apply is_derive_unique, HF; exact Hj).
  assert (DX : forall j, (j <= k)%nat -> forall v, Derive (X j) v = X (S j) v) by (intros j Hj v; apply is_derive_unique, HX; exact Hj).
  destruct k as [|[|[|[|k]]]]; [| | | |lia]; unfold chain_rule; auto_derive.
  - auto.
  - change (Derive (fun x => X 0%nat x)) with (Derive (X 0%nat)). change (Derive (fun x => F 0%nat x)) with (Derive (F 0%nat)). rewrite DF, DX by lia. ring.
  - repeat split; auto.
  - change (Derive (fun x => X 0%nat x)) with (Derive (X 0%nat)). change (Derive (fun x => X 1%nat x)) with (Derive (X 1%nat)). change (Derive (fun x => F 1%nat x)) with (Derive (F 1%nat)). rewrite !DF, !DX by lia. ring.
  - repeat split; auto.
  - change (Derive (fun x => X 0%nat x)) with (Derive (X 0%nat)). change (Derive (fun x => X 1%nat x)) with (Derive (X 1%nat)). change (Derive (fun x => X 2%nat x)) with (Derive (X 2%nat)). change (Derive (fun x => F 1%nat x)) with (Derive (F 1%nat)). change (Derive (fun x => F 2%nat x)) with (Derive (F 2%nat)). rewrite !DF, !DX by lia. ring.
  - repeat split; auto.
  - change (Derive (fun x => X 0%nat x)) with (Derive (X 0%nat)). change (Derive (fun x => X 1%nat x)) with (Derive (X 1%nat)). change (Derive (fun x => X 2%nat x)) with (Derive (X 2%nat)). change (Derive (fun x => X 3%nat x)) with (Derive (X 3%nat)). change (Derive (fun x => F 1%nat x)) with (Derive (F 1%nat)). change (Derive (fun x => F 2%nat x)) with (Derive (F 2%nat)). change (Derive (fun x => F 3%nat x)) with (Derive (F 3%nat)). rewrite !DF, !DX by lia. ring.
Qed.

(* ---- refused tables ---- *)
Lemma tranproc_no_good : forall eps x f x0 xi e, good eps (length xi) x f x0 = Err e -> tranproc eps x f x0 xi = Err e.
Proof. intros eps x f x0 xi e H. unfold tranproc. rewrite H. reflexivity. Qed.
Lemma increasing_NoDup : forall x, increasing x -> NoDup x.
Proof.
  intros x H. apply (NoDup_nth x 0). intros i j Hi Hj E. destruct (Nat.lt_trichotomy i j) as [Q|[Q|Q]]; auto;
    [pose proof (increasing_lt x i j H Q Hj)|pose proof (increasing_lt x j i H Q Hi)]; unfold at_ in *; lra.
Qed.
Lemma tranproc_duplicates : forall eps x f x0 xi, length f = length x -> x0 <> [] -> ~ NoDup x -> tranproc eps x f x0 xi = Err ValueError.
Proof.
  intros eps x f x0 xi L N0 D. apply tranproc_no_good. unfold good. destruct x as [|a x]; [exfalso; apply D; constructor|]. destruct x0 as [|t x0]; [congruence|].
  unfold trangood. destruct (length f <? length (a :: x))%nat eqn:E; [apply Nat.ltb_lt in E; lia|]. clear E.
  destruct (existsb _ _) eqn:E; [reflexivity|]. exfalso. apply D.
  assert (P : Permutation (map fst (sort_rows (combine (a :: x) f))) (a :: x)).
  { transitivity (map fst (combine (a :: x) f)); [apply Permutation_map, sort_perm|]. rewrite map_fst_combine by lia. reflexivity. }
  apply (Permutation_NoDup P). apply increasing_NoDup. intros i Hi.
  set (y := map fst (sort_rows (combine (a :: x) f))) in *.
  assert (Q : In (nth i (diffR y) 0) (diffR y)) by (apply nth_In; rewrite diffR_length; lia). rewrite diffR_nth in Q by lia.
  destruct (Rlt_dec 0 (at_ y (S i) - at_ y i)) as [Z|Z]; [lra|]. exfalso.
  assert (existsb (fun d => if Rlt_dec 0 d then false else true) (diffR y) = true); [|congruence].
  apply existsb_exists. exists (at_ y (S i) - at_ y i). split; [exact Q|]. destruct (Rlt_dec 0 (at_ y (S i) - at_ y i)); [contradiction|reflexivity].
Qed.
Lemma tranproc_single : forall eps a c x0 xi, x0 <> [] -> tranproc eps [a] [c] x0 xi = Err ValueError.
Proof.
  intros eps a c x0 xi N0. apply tranproc_no_good. destruct x0 as [|t x0]; [congruence|]. unfold good, trangood. cbn [length Nat.ltb Nat.leb combine sort_rows insert_row map fst snd diffR existsb].
  unfold from_end, first, getz, geti. cbn [length Z.of_nat Z.opp Z.leb Z.compare Pos.of_succ_nat nth_error Z.add Z.to_nat Z.pos_sub bind Z.ltb Z.max Z.compare Pos.compare Pos.compare_cont orb].
  replace (Z.min 2 (Z.max (nmax (length xi) [a]) 2)) with 2%Z by lia. cbn [bind].
  change (-1 <=? -1)%Z with true. cbn [bind]. unfold arange. match goal with |- context [Req_EM_T ?d 0] => destruct (Req_EM_T d 0) as [Z|Z] end; [reflexivity|]. exfalso. apply Z. field.
Qed.

(* ---- a table finer than the program wants: the last point of the table is refused ---- *)
Lemma tranproc_fine : forall eps x f, increasing x -> length f = length x -> (3 <= length x)%nat -> ~ coarse 0 x ->
  tranproc eps x f [at_ x (length x - 1)] [] = Err IndexError.
Proof.
  intros eps x f H L N K. rewrite tranproc_plain. unfold tranproc0. set (t := at_ x (length x - 1)).
  assert (Nx : x <> []) by (destruct x; [cbn in N; lia|discriminate]).
  assert (M : (nmax 0 x < Z.of_nat (length x))%Z).
  { unfold nmax. rewrite (minR_increasing x H Nx), (maxR_increasing x H Nx). unfold coarse in K. apply Rnot_lt_le in K.
    match goal with |- (ceil ?v < _)%Z => pose proof (ceil_spec v) as Q; set (w := v) in * end. apply lt_IZR. rewrite <- INR_IZR_INZ. lra. }
  assert (G : exists xo fo, good eps 0 x f [t] = Ok (xo, fo) /\ (length fo < length x)%nat /\ hd 0 xo = at_ x 0 /\ last xo 0 = t).
  { assert (G : good eps 0 x f [t] = trangood eps x f None (Some t) (Some t) (Some (nmax 0 x))) by (unfold good; destruct x; [congruence|]; reflexivity).
    rewrite G. clear G. unfold trangood. destruct (length f <? length x)%nat eqn:E; [apply Nat.ltb_lt in E; lia|]. clear E.
    rewrite sort_rows_sorted by (rewrite map_fst_combine by lia; exact H). rewrite map_fst_combine, map_snd_combine by lia. rewrite (no_duplicates x H).
    rewrite from_end_nth by lia. cbn [bind]. unfold first. rewrite geti_nth by lia. cbn [bind]. fold t.
    rewrite L. destruct (Z.max (nmax 0 x) 2 <? Z.of_nat (length x))%Z eqn:E2; [|lia]. rewrite Bool.orb_true_r. cbn [orb].
    set (m := Z.to_nat (Z.max (nmax 0 x) 2)).
    replace (Z.min (Z.max (Z.of_nat (length x)) 2) (Z.max (nmax 0 x) 2)) with (Z.of_nat m) by (unfold m; lia). rewrite <- INR_IZR_INZ.
    assert (B : at_ x 0 < t) by (apply increasing_lt; [exact H|lia|lia]).
    assert (M2 : (2 <= m)%nat) by (unfold m; lia). assert (M3 : (m < length x)%nat) by (unfold m; lia). assert (N1 : 1 < INR m) by (apply (lt_INR 1); lia).
    rewrite (arange_grid (at_ x 0) t m B M2). cbn [bind fst snd]. rewrite geti_nth by (rewrite uniform_length; lia). cbn [bind].
    set (d := (t - at_ x 0) / (INR m - 1)).
    assert (G0 : at_ (uniform (at_ x 0) d m) 0 = at_ x 0) by (rewrite uniform_at by lia; cbn [INR]; ring).
    assert (G1 : at_ (uniform (at_ x 0) d m) (m - 1) = t) by (rewrite uniform_at by lia; rewrite minus_INR by lia; cbn [INR]; unfold d; field; lra).
    unfold extend_below. change (at_R (uniform (at_ x 0) d m) 0) with (at_ (uniform (at_ x 0) d m) 0). rewrite G0.
    destruct (Rlt_dec t (at_ x 0)) as [Q|Q]; [lra|]. cbn [fst snd].
    unfold extend_above. rewrite from_end_nth by (rewrite ?uniform_length; lia). cbn [bind]. rewrite uniform_length, G1.
    destruct (Rlt_dec t t) as [Q2|Q2]; [lra|]. eexists _, _. split; [reflexivity|].
    rewrite map_length, uniform_length, hd_at, last_at, uniform_length. auto. }
  destruct G as (xo & fo & G & LF & Hh & Hl). rewrite G. cbn [bind fst snd]. unfold values. cbn [mapM]. unfold position. rewrite Hh, Hl.
  assert (B : at_ x 0 < t) by (apply increasing_lt; [exact H|lia|lia]).
  replace ((INR (length f) - 1) * (t - at_ x 0) / (t - at_ x 0)) with (IZR (Z.of_nat (length f) - 1)) by (rewrite minus_IZR, <- INR_IZR_INZ; field; lra).
  unfold by_position. rewrite (floor_unique _ (Z.of_nat (length f) - 1)) by lra. rewrite Z.eqb_refl.
  unfold getz at 1. destruct (0 <=? Z.of_nat (length f) - 1 - 1)%Z eqn:E; [|lia].
  destruct (geti fo (Z.to_nat (Z.of_nat (length f) - 1 - 1))) as [v|e] eqn:EG.
  - cbn [bind]. unfold getz. destruct (0 <=? Z.of_nat (length f) - 1 - 1 + 1)%Z eqn:E3; [|lia].
    unfold geti. rewrite (proj2 (nth_error_None fo _)) by lia. reflexivity.
  - cbn [bind]. unfold geti in EG. destruct (nth_error fo _) in EG; [discriminate|]. injection EG as <-. reflexivity.
Qed.
