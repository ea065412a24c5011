From Coq Require Import Reals List Arith Lra Lia.
From Coquelicot Require Import Complex.
From Verif Require Import Base DisuModel DisuSpec.
Import ListNotations.
Set Bullet Behavior "Strict Subproofs".

(* writes *)
Lemma add_ok : forall l p v, (p < List.length l)%nat -> exists r, add_at l p v = Ok r /\ List.length r = List.length l /\
  forall q, nth q r (RtoC 0) = Cplus (nth q l (RtoC 0)) (only_if (p =? q)%nat v).
Proof.
  induction l as [|a l IH]; intros p v H; [cbn in H; lia|]. destruct p as [|p].
  - cbn. eexists. split; [reflexivity|]. split; [reflexivity|]. intros [|q]; cbn; [reflexivity|]. unfold only_if. rewrite Cplus_0_r. reflexivity.
  - destruct (IH p v ltac:(cbn in H; lia)) as [r [E [L N]]]. cbn. rewrite E. cbn. eexists. split; [reflexivity|]. split; [cbn; rewrite L; reflexivity|].
    intros [|q]; cbn; [unfold only_if; rewrite Cplus_0_r; reflexivity|]. apply N.
Qed.
Lemma add_bad : forall l p v, (List.length l <= p)%nat -> add_at l p v = Err MemoryError.
Proof. induction l as [|a l IH]; intros p v H; [reflexivity|]. destruct p as [|p]; [cbn in H; lia|]. cbn. rewrite IH by (cbn in H; lia). reflexivity. Qed.
Lemma add_len l p v r : add_at l p v = Ok r -> List.length r = List.length l.
Proof.
  intros E. destruct (le_lt_dec (List.length l) p) as [H|H]; [rewrite add_bad in E by exact H; discriminate E|].
  destruct (add_ok l p v H) as [r' [E' [L _]]]. rewrite E in E'. injection E' as ->. exact L.
Qed.
Definition csum {T} (f : T -> C) (l : list T) : C := fold_right (fun a s => Cplus (f a) s) (RtoC 0) l.
Lemma csum_cons {T} (f : T -> C) a l : csum f (a :: l) = Cplus (f a) (csum f l).
Proof. reflexivity. Qed.
Lemma csum_nil {T} (f : T -> C) : csum f [] = RtoC 0.
Proof. reflexivity. Qed.
Arguments csum : simpl never.
Lemma csum_app {T} (f : T -> C) l1 l2 : csum f (l1 ++ l2) = Cplus (csum f l1) (csum f l2).
Proof. induction l1 as [|a l1 IH]; cbn [app]; [rewrite csum_nil, Cplus_0_l; reflexivity|]. rewrite !csum_cons, IH, Cplus_assoc. reflexivity. Qed.
Lemma csum_flat {T U} (f : U -> C) (g : T -> list U) l : csum f (flat_map g l) = csum (fun a => csum f (g a)) l.
Proof. induction l as [|a l IH]; [reflexivity|]. cbn [flat_map]. rewrite csum_app, IH, csum_cons. reflexivity. Qed.
Lemma csum_ext {T} (f g : T -> C) l : (forall a, In a l -> f a = g a) -> csum f l = csum g l.
Proof. intros H. induction l as [|a l IH]; [reflexivity|]. rewrite !csum_cons, (H a (or_introl eq_refl)). f_equal. apply IH. intros b B. apply H. right. exact B. Qed.
Lemma csum_zero {T} (f : T -> C) l : (forall a, In a l -> f a = RtoC 0) -> csum f l = RtoC 0.
Proof. intros H. induction l as [|a l IH]; [reflexivity|]. rewrite csum_cons, (H a (or_introl eq_refl)), Cplus_0_l. apply IH. intros b B. apply H. right. exact B. Qed.
Lemma csum_plus {T} (f g : T -> C) l : csum (fun a => Cplus (f a) (g a)) l = Cplus (csum f l) (csum g l).
Proof. induction l as [|a l IH]; [rewrite !csum_nil, Cplus_0_l; reflexivity|]. rewrite !csum_cons, IH. ring. Qed.
Lemma csum_one (f : nat -> C) m i : (i < m)%nat -> (forall j, (j < m)%nat -> j <> i -> f j = RtoC 0) -> csum f (seq 0 m) = f i.
Proof.
  intros I H. replace m with (i + (1 + (m - i - 1)))%nat by lia. rewrite seq_app, csum_app, seq_app, csum_app.
  rewrite (csum_zero f (seq 0 i)) by (intros a A; apply in_seq in A; apply H; lia).
  rewrite (csum_zero f (seq (0 + i + 1) _)) by (intros a A; apply in_seq in A; apply H; lia). cbn [seq Nat.add]. rewrite csum_cons, csum_nil, Cplus_0_l, !Cplus_0_r. reflexivity.
Qed.

Definition at_pos (p : nat) (w : write) : C := only_if (fst w =? p)%nat (snd w).
Lemma perform_ok : forall ws l, (forall w, In w ws -> (fst w < List.length l)%nat) ->
  exists r, perform ws l = Ok r /\ List.length r = List.length l /\ forall q, nth q r (RtoC 0) = Cplus (nth q l (RtoC 0)) (csum (at_pos q) ws).
Proof.
  induction ws as [|w ws IH]; intros l H.
  - exists l. split; [reflexivity|]. split; [reflexivity|]. intros q. rewrite csum_nil, Cplus_0_r. reflexivity.
  - destruct (add_ok l (fst w) (snd w) (H w (or_introl eq_refl))) as [l' [E [L N]]].
    destruct (IH l') as [r [E' [L' N']]]; [intros v V; rewrite L; apply H; right; exact V|].
    exists r. split; [cbn; rewrite E; exact E'|]. split; [congruence|]. intros q. rewrite N', N, csum_cons. unfold at_pos at 2. rewrite Cplus_assoc. reflexivity.
Qed.
Lemma perform_bad : forall ws l w, In w ws -> (List.length l <= fst w)%nat -> perform ws l = Err MemoryError.
Proof.
  induction ws as [|v ws IH]; intros l w I H; [contradiction|]. cbn. destruct (add_at l (fst v) (snd v)) as [l'|e] eqn:E.
  - destruct I as [->|I]; [rewrite add_bad in E by exact H; discriminate E|]. cbn. apply (IH l' w I). rewrite (add_len _ _ _ _ E). exact H.
  - cbn. destruct (le_lt_dec (List.length l) (fst v)) as [B|B]; [rewrite add_bad in E by exact B; congruence|].
    destruct (add_ok l (fst v) (snd v) B) as [r [E' _]]. congruence.
Qed.

Section Loops.
Variables (rA iA : list R) (m nmin nmax n : nat) (Ep1 : nat -> R) (Ed1 : nat -> option R) (Ep2 Ed2 : nat -> nat -> R).
Let ws := loops rA iA m nmin nmax Ep1 Ed1 Ep2 Ed2.
Let A := case_of rA iA m.

Lemma writes_in : (2 * (nmax - 1) < n)%nat -> forall w, In w ws -> (fst w < n * m)%nat.
Proof.
  intros N w I. unfold ws, loops, range in I. apply in_flat_map in I. destruct I as [ix [IX I]]. apply in_seq in IX. apply in_app_or in I. destruct I as [I|I].
  - apply in_flat_map in I. destruct I as [i [J I]]. apply in_seq in J. assert (B : (2 * (ix * m) + i < n * m)%nat) by nia. assert (B' : (i < n * m)%nat) by nia.
    unfold diagonal in I. destruct I as [<-|I]; [exact B|]. destruct (Ed1 ix); [|contradiction]. destruct I as [<-|[]]. exact B'.
  - apply in_flat_map in I. destruct I as [jy [JY I]]. apply in_seq in JY. apply in_flat_map in I. destruct I as [i [J I]]. apply in_seq in J.
    assert (B : (ix * m + jy * m + i < n * m)%nat) by nia. assert (B' : (jy * m - ix * m + i < n * m)%nat) by nia.
    destruct I as [<-|[<-|[]]]; [exact B|exact B'].
Qed.
Lemma write_out : (1 <= m)%nat -> (nmin - 1 < nmax)%nat -> (n <= 2 * (nmax - 1))%nat -> exists w, In w ws /\ (n * m <= fst w)%nat.
Proof.
  intros M W N. eexists. split.
  - unfold ws, loops, range. apply in_flat_map. exists (nmax - 1)%nat. split; [apply in_seq; lia|]. apply in_or_app. left. apply in_flat_map. exists 0%nat.
    split; [apply in_seq; lia|]. left. reflexivity.
  - cbn [fst]. nia.
Qed.

Lemma same_pos q i' k i : (i' < m)%nat -> (i < m)%nat -> ((q * m + i')%nat =? (k * m + i)%nat)%nat = ((q =? k)%nat && (i' =? i)%nat)%bool.
Proof.
  intros H1 H2. destruct (Nat.eqb_spec q k) as [->|N]; cbn.
  - destruct (Nat.eqb_spec i' i) as [->|N]; [apply Nat.eqb_refl|]. apply Nat.eqb_neq. lia.
  - apply Nat.eqb_neq. nia.
Qed.
Lemma over_cases q k i (f : nat -> C) : (i < m)%nat -> csum (fun j => only_if ((q * m + j)%nat =? (k * m + i)%nat)%nat (f j)) (seq 0 m) = only_if (q =? k)%nat (f i).
Proof.
  intros I. rewrite (csum_one _ m i I).
  - rewrite same_pos, Nat.eqb_refl, Bool.andb_true_r by exact I. reflexivity.
  - intros j J NE. rewrite same_pos by assumption. destruct (Nat.eqb_spec j i); [contradiction|]. rewrite Bool.andb_false_r. reflexivity.
Qed.

Lemma loops_sum Ed k i : (i < m)%nat -> (forall ix, match Ed1 ix with Some e => Ed ix ix = e | None => Ed ix ix = 0%R end) ->
  (forall ix jy, (ix < jy)%nat -> Ed ix jy = Ed2 ix jy) ->
  forall Ep, (forall ix, Ep ix ix = Ep1 ix) -> (forall ix jy, (ix < jy)%nat -> Ep ix jy = Ep2 ix jy) ->
  csum (at_pos (k * m + i)) ws = second_order (fun q => A i q) Ep Ed (nmin - 1) nmax k.
Proof.
  intros I HD HD2 Ep HP HP2. unfold ws, loops, second_order, sum_from_to. rewrite csum_flat. unfold range.
  apply (csum_ext (T := nat)). intros ix IX. rewrite csum_app, !csum_flat. f_equal.
  - rewrite !Nat.sub_0_r.
    assert (E : forall j, csum (at_pos (k * m + i)) (diagonal rA iA m (Ep1 ix) (Ed1 ix) ix j) =
      Cplus (only_if (((2 * ix) * m + j)%nat =? (k * m + i)%nat)%nat (RtoC (2 * Ep ix ix) * (A j ix * A j ix))%C)
            (only_if ((0 * m + j)%nat =? (k * m + i)%nat)%nat (RtoC (2 * Ed ix ix) * (Cconj (A j ix) * A j ix))%C)).
    { intros j. unfold diagonal. rewrite csum_cons, HP. f_equal.
      - unfold at_pos. cbn [fst snd]. replace (2 * (ix * m) + j)%nat with (2 * ix * m + j)%nat by lia. f_equal. unfold A, case_of, kfact, RtoC, Cmult. cbn. f_equal; ring.
      - specialize (HD ix). destruct (Ed1 ix) as [e|].
        + rewrite csum_cons, csum_nil, Cplus_0_r. unfold at_pos. cbn [fst snd]. f_equal. rewrite HD. unfold A, case_of, RtoC, Cmult, Cconj. cbn. f_equal; ring.
        + rewrite csum_nil. unfold only_if. rewrite HD, Rmult_0_r, Cmult_0_l. destruct (_ =? _)%nat; reflexivity. }
    rewrite (csum_ext _ _ _ (fun j _ => E j)), csum_plus, !over_cases by exact I. reflexivity.
  - apply (csum_ext (T := nat)). intros jy JY. apply in_seq in JY. rewrite csum_flat, Nat.sub_0_r.
    assert (E : forall j, csum (at_pos (k * m + i)) (pair_of rA iA m (Ep2 ix jy) (Ed2 ix jy) ix jy j) =
      Cplus (only_if (((ix + jy) * m + j)%nat =? (k * m + i)%nat)%nat (RtoC (4 * Ep ix jy) * (A j ix * A j jy))%C)
            (only_if (((jy - ix) * m + j)%nat =? (k * m + i)%nat)%nat (RtoC (4 * Ed ix jy) * (Cconj (A j ix) * A j jy))%C)).
    { intros j. unfold pair_of. rewrite !csum_cons, csum_nil, Cplus_0_r. rewrite HP2, HD2 by lia. unfold at_pos. cbn [fst snd].
      rewrite Nat.mul_add_distr_r, Nat.mul_sub_distr_r. f_equal; f_equal; unfold A, case_of, kfact, RtoC, Cmult, Cconj; cbn; f_equal; ring. }
    rewrite (csum_ext _ _ _ (fun j _ => E j)), csum_plus, !over_cases by exact I. reflexivity.
Qed.
End Loops.
