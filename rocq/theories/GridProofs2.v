From Coq Require Import Reals Lra Lia Permutation.
From Verif Require Import Base PolyModel FilterModel FilterProofs3 SlopesProofs3 GridModel GridSpec GridProofs.
Local Open Scope R_scope.

Definition share_at (ps : list (Z * R)) (s : nat) : R := sumR (map (fun p => if (Z.to_nat (fst p) =? s)%nat then snd p else 0) ps).
Lemma fold_bincount ps : forall c, (forall p, In p ps -> (Z.to_nat (fst p) < List.length c)%nat) ->
  let r := fold_left (fun c p => upd c (Z.to_nat (fst p)) (at_R c (Z.to_nat (fst p)) + snd p)) ps c in
  List.length r = List.length c /\ forall s, at_R r s = at_R c s + share_at ps s.
Proof.
  induction ps as [|p ps IH]; intros c H; cbn [fold_left].
  - split; [reflexivity|]. intros s. unfold share_at. cbn. lra.
  - assert (L : List.length (upd c (Z.to_nat (fst p)) (at_R c (Z.to_nat (fst p)) + snd p)) = List.length c) by (apply upd_length, H; now left).
    destruct (IH (upd c (Z.to_nat (fst p)) (at_R c (Z.to_nat (fst p)) + snd p))) as [L1 E]; [intros q Hq; rewrite L; apply H; now right|].
    split; [rewrite L1; exact L|]. intros s. rewrite E. unfold at_R at 1. rewrite upd_nth by (apply H; now left). unfold share_at, sumR. cbn [map fold_right].
    rewrite (Nat.eqb_sym (Z.to_nat (fst p)) s). destruct (Nat.eqb_spec s (Z.to_nat (fst p))) as [->|]; unfold at_R; lra.
Qed.
Lemma len_bound idx n : (n <= fold_right (fun i m => Nat.max (S (Z.to_nat i)) m) n idx)%nat /\ forall i, In i idx -> (Z.to_nat i < fold_right (fun i m => Nat.max (S (Z.to_nat i)) m) n idx)%nat.
Proof.
  induction idx as [|j idx [IH1 IH2]]; cbn [fold_right]; [split; [lia|intros i []]|]. split; [lia|]. intros i [<-|H]; [lia|]. specialize (IH2 i H). lia.
Qed.
Lemma len_small idx n : (forall i, In i idx -> (Z.to_nat i < n)%nat) -> fold_right (fun i m => Nat.max (S (Z.to_nat i)) m) n idx = n.
Proof. induction idx as [|j idx IH]; intros H; [reflexivity|]. cbn [fold_right]. rewrite IH by (intros; apply H; now right). specialize (H j (or_introl eq_refl)). lia. Qed.
Lemma at_repeat n s : at_R (repeat 0 n) s = 0.
Proof. unfold at_R. revert s. induction n as [|n IH]; intros [|s]; cbn; auto. Qed.
Lemma bincount_ok idx w n : List.length idx = List.length w -> (forall i, In i idx -> (0 <= i < Z.of_nat n)%Z) ->
  exists c, bincount idx w n = Ok c /\ List.length c = n /\ forall s, at_R c s = share_at (combine idx w) s.
Proof.
  intros L H. unfold bincount. rewrite L, Nat.eqb_refl. cbn [negb]. replace (existsb (fun i => (i <? 0)%Z) idx) with false.
  2:{ symmetry. apply not_true_iff_false. intros E. apply existsb_exists in E. destruct E as (i & Hi & E). apply Z.ltb_lt in E. specialize (H i Hi). lia. }
  eexists. split; [reflexivity|]. rewrite len_small by (intros i Hi; specialize (H i Hi); lia).
  destruct (fold_bincount (combine idx w) (repeat 0 n)) as [L1 E].
  { intros p Hp. rewrite repeat_length. destruct p as [i v]. apply in_combine_l in Hp. specialize (H i Hp). cbn. lia. }
  split; [rewrite L1; apply repeat_length|]. intros s. rewrite E, at_repeat. lra.
Qed.
(* ---- accumsum and accum ---- *)
Lemma cells_one n : cells [n] = map (fun i => [i]) (seq 0 n).
Proof. cbn [cells]. induction (seq 0 n) as [|i l IH]; [reflexivity|]. cbn in *. now rewrite IH. Qed.
Lemma group_sum n s idx : (forall i, In i idx -> (0 <= i < Z.of_nat n)%Z) -> forall a l, group [n] [s] (map (fun i => [i]) idx) a l -> sumR l = share_at (combine idx a) s.
Proof.
  induction idx as [|i idx IH]; intros H a l G; inversion G; subst; [reflexivity| |].
  - cbn [combine]. unfold share_at, sumR. cbn [map fold_right fst snd]. assert (E : Z.to_nat i = s).
    { match goal with D : denotes _ _ _ |- _ => inversion D; subst end. specialize (H i (or_introl eq_refl)). rewrite Z.mod_small in * by lia. lia. }
    rewrite E, Nat.eqb_refl. f_equal. apply IH; [intros; apply H; now right|assumption].
  - cbn [combine]. unfold share_at, sumR. cbn [map fold_right fst snd]. destruct (Nat.eqb_spec (Z.to_nat i) s) as [E|E].
    + exfalso. match goal with D : ~ denotes _ _ _ |- _ => apply D end. specialize (H i (or_introl eq_refl)). constructor; [lia| |constructor]. rewrite Z.mod_small; lia.
    + rewrite Rplus_0_l. apply IH; [intros; apply H; now right|assumption].
Qed.
Lemma accumsum_accum idx a n : List.length idx = List.length a -> (forall i, In i idx -> (0 <= i < Z.of_nat n)%Z) ->
  exists c, accumsum idx a (Some n) = Ok c /\ accum (map (fun i => [i]) idx) a sumR (Some [n]) 0 = Ok c.
Proof.
  intros L H. destruct (bincount_ok idx a n L H) as (c & E & L1 & C). exists c. split; [exact E|].
  assert (T : exists o, accum (map (fun i => [i]) idx) a sumR (Some [n]) 0 = Ok o).
  { apply accum_total. split; [now rewrite map_length|]. intros ix Hx. apply in_map_iff in Hx. destruct Hx as (i & <- & Hi). specialize (H i Hi).
    exists [Z.to_nat i]. constructor; [lia| |constructor]. rewrite Z.mod_small; lia. }
  destruct T as [o T]. rewrite T. f_equal. destruct (accum_groups _ _ _ _ _ _ T) as [L2 G]. cbn [fold_right] in L2. rewrite Nat.mul_1_r in L2.
  apply nth_ext with 0 0; [lia|]. intros s Hs. rewrite L2 in Hs.
  assert (CG : exists l, group [n] [s] (map (fun i => [i]) idx) a l).
  { clear - L. revert a L. induction idx as [|i idx IH]; intros [|v a] L; try discriminate; [exists []; constructor|]. cbn in L. destruct (IH a ltac:(lia)) as [l Hl].
    destruct (py_cell [n] [i]) as [t|] eqn:E.
    - apply py_cell_spec in E. destruct (list_eq_dec Nat.eq_dec t [s]) as [->|N]; [exists (v :: l); now constructor|].
      exists l. apply group_out; [|exact Hl]. intros D. apply N. eapply denotes_unique; eassumption.
    - exists l. apply group_out; [|exact Hl]. intros D. apply py_cell_spec in D. congruence. }
  destruct CG as [l CG]. specialize (G [s] l ltac:(repeat constructor; lia) CG). cbn [position fold_right] in G. rewrite Nat.mul_1_r, Nat.add_0_r in G.
  apply nth_error_nth with (d := 0) in G. rewrite G. change (nth s c 0) with (at_R c s). rewrite C, <- (group_sum n s idx H a l CG). now destruct l.
Qed.
(* ---- the default shape ---- *)
Lemma max_ix_spec accmap : forall m d, List.length m = d -> (forall ix, In ix accmap -> List.length ix = d) ->
  List.length (max_ix m accmap) = d /\ forall k, (k < d)%nat ->
    (nth k m 0 <= nth k (max_ix m accmap) 0)%Z /\ (forall ix, In ix accmap -> nth k ix 0 <= nth k (max_ix m accmap) 0)%Z /\
    (nth k (max_ix m accmap) 0%Z = nth k m 0%Z \/ exists ix, In ix accmap /\ nth k (max_ix m accmap) 0%Z = nth k ix 0%Z).
Proof.
  induction accmap as [|ix accmap IH]; intros m d Lm H; cbn [max_ix].
  - split; [exact Lm|]. intros k Hk. split; [lia|]. split; [intros ix []|now left].
  - set (m' := map _ _). assert (L' : List.length m' = d) by (unfold m'; rewrite map_length, combine_length, Lm, (H ix (or_introl eq_refl)); lia).
    assert (M : forall k, (k < d)%nat -> nth k m' 0%Z = Z.max (nth k m 0%Z) (nth k ix 0%Z)).
    { intros k Hk. unfold m'. rewrite (nth_indep _ 0%Z ((fun p => Z.max (fst p) (snd p)) (0, 0)%Z)) by (fold m'; lia). rewrite (map_nth (fun p => Z.max (fst p) (snd p))).
      rewrite combine_nth by (rewrite Lm, (H ix (or_introl eq_refl)); reflexivity). reflexivity. }
    destruct (IH m' d L' ltac:(intros; apply H; now right)) as [L G]. split; [exact L|]. intros k Hk. destruct (G k Hk) as (G1 & G2 & G3). rewrite M in G1, G3 by exact Hk.
    split; [lia|]. split.
    + intros ix' [<-|Hx]; [lia|now apply G2].
    + destruct G3 as [E|(x & Hx & E)]; [|right; exists x; split; [now right|exact E]]. rewrite E. destruct (Z.max_spec (nth k m 0%Z) (nth k ix 0%Z)) as [[_ ->]|[_ ->]]; [right; exists ix; split; [now left|reflexivity]|now left].
Qed.
Lemma denotes_small shape : forall ix, List.length ix = List.length shape -> (forall k, (k < List.length shape)%nat -> (0 <= nth k ix 0 < Z.of_nat (nth k shape 0%nat))%Z) ->
  denotes shape ix (map Z.to_nat ix).
Proof.
  induction shape as [|k shape IH]; intros [|i ix] L H; try discriminate; [constructor|]. cbn [map]. pose proof (H 0%nat ltac:(cbn; lia)) as H0. cbn in H0.
  constructor; [lia|rewrite Z.mod_small; lia|]. apply IH; [cbn in L; lia|]. intros j Hj. apply (H (S j)). cbn. lia.
Qed.
Lemma accum_default {A B} accmap (a : list A) (func : list A -> B) fill d : accmap <> [] -> List.length accmap = List.length a ->
  (forall ix, In ix accmap -> List.length ix = d /\ forall i, In i ix -> (0 <= i)%Z) ->
  exists shape out, accum accmap a func None fill = Ok out /\ accum accmap a func (Some shape) fill = Ok out /\ List.length shape = d /\
    forall k, (k < d)%nat -> (forall ix, In ix accmap -> (nth k ix 0 < Z.of_nat (nth k shape 0%nat))%Z) /\ exists ix, In ix accmap /\ (nth k ix 0 = Z.of_nat (nth k shape 0%nat) - 1)%Z.
Proof.
  intros Hne L H. destruct accmap as [|ix0 accmap]; [congruence|]. destruct (max_ix_spec accmap ix0 d) as [Lm G]; [apply H; now left|intros ix Hx; apply H; now right|].
  set (m := max_ix ix0 accmap) in *. set (shape := map (fun i => Z.to_nat (1 + i)) m).
  assert (N : forall ix k, In ix (ix0 :: accmap) -> (k < d)%nat -> (0 <= nth k ix 0)%Z).
  { intros ix k Hx Hk. destruct (H ix Hx) as [Lx P]. apply P, nth_In. lia. }
  assert (Sk : forall k, (k < d)%nat -> (Z.of_nat (nth k shape 0%nat) = 1 + nth k m 0)%Z).
  { intros k Hk. unfold shape. rewrite (nth_indep _ 0%nat ((fun i => Z.to_nat (1 + i)) 0%Z)) by (rewrite map_length; lia). rewrite (map_nth (fun i => Z.to_nat (1 + i))).
    pose proof (G k Hk) as (G1 & _). pose proof (N ix0 k (or_introl eq_refl) Hk). lia. }
  assert (LS : List.length shape = d) by (unfold shape; now rewrite map_length).
  assert (T : exists o, accum (ix0 :: accmap) a func (Some shape) fill = Ok o).
  { apply accum_total. split; [exact L|]. intros ix Hx. exists (map Z.to_nat ix). apply denotes_small; [rewrite LS; apply H, Hx|]. intros k Hk. rewrite LS in Hk. rewrite Sk by exact Hk.
    pose proof (N ix k Hx Hk). destruct (G k Hk) as (G1 & G2 & _). destruct Hx as [<-|Hx]; [lia|]. specialize (G2 ix Hx). lia. }
  destruct T as [o T]. exists shape, o. split; [|split; [exact T|split; [exact LS|]]].
  - rewrite <- T. unfold accum. destruct (negb _); [reflexivity|]. unfold accum_shape. fold m.
    replace (existsb (fun i => (i <? -1)%Z) m) with false; [reflexivity|]. symmetry. apply not_true_iff_false. intros E. apply existsb_exists in E.
    destruct E as (i & Hi & E). apply Z.ltb_lt in E. apply In_nth with (d := 0%Z) in Hi. destruct Hi as (k & Hk & <-). rewrite Lm in Hk. pose proof (G k Hk) as (G1 & _). pose proof (N ix0 k (or_introl eq_refl) Hk). lia.
  - intros k Hk. rewrite Sk by exact Hk. destruct (G k Hk) as (G1 & G2 & G3). split.
    + intros ix [<-|Hx]; [lia|]. specialize (G2 ix Hx). lia.
    + destruct G3 as [E|(ix & Hx & E)]; [exists ix0; split; [now left|lia]|exists ix; split; [now right|lia]].
Qed.
(* too small a shape: accum refuses, accumsum returns a longer array *)
Lemma accumsum_longer : accumsum [5%Z] [1] (Some 2%nat) = Ok [0; 0; 0; 0; 0; 0 + 1] /\ accum [[5%Z]] [1] sumR (Some [2%nat]) 0 = Err IndexError.
Proof. split; reflexivity. Qed.
