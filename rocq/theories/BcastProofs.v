(* Shapes. *)
From Coq Require Import List Arith ZArith Lia Permutation.
From Verif Require Import Base BcastModel BcastSpec.
Import ListNotations.

Fixpoint fitr (a u : list nat) : Prop :=
  match a, u with [], _ => True | _ :: _, [] => False | x :: a', y :: u' => (x = y \/ x = 1%nat) /\ fitr a' u' end.
Lemma fitr_nth : forall a u, fitr a u <-> (List.length a <= List.length u)%nat /\ forall i, (i < List.length a)%nat -> nth i a 0%nat = nth i u 0%nat \/ nth i a 0%nat = 1%nat.
Proof.
  induction a as [|x a IH]; intros [|y u]; cbn [fitr List.length].
  - split; [intros _; split; [lia|intros i H; lia]|tauto].
  - split; [intros _; split; [lia|intros i H; lia]|tauto].
  - split; [tauto|intros [H _]; lia].
  - rewrite IH. split.
    + intros [H [L K]]. split; [lia|]. intros [|i] Hi; cbn [nth]; [exact H|apply K; lia].
    + intros [L K]. split; [exact (K 0%nat ltac:(lia))|]. split; [lia|]. intros i Hi. exact (K (S i) ltac:(lia)).
Qed.
Lemma fits_rev : forall s t, fits s t <-> fitr (rev s) (rev t).
Proof.
  intros s t. rewrite fitr_nth, !rev_length. unfold fits. cbn zeta. split; intros [L K]; (split; [exact L|]); intros i Hi; specialize (K i Hi).
  - rewrite !rev_nth by lia. replace (List.length s - S i)%nat with (List.length s - 1 - i)%nat by lia. replace (List.length t - S i)%nat with (List.length t - 1 - i)%nat by lia. exact K.
  - rewrite !rev_nth in K by lia. replace (List.length s - S i)%nat with (List.length s - 1 - i)%nat in K by lia. replace (List.length t - S i)%nat with (List.length t - 1 - i)%nat in K by lia. exact K.
Qed.
Lemma fitr_refl : forall a, fitr a a.
Proof. induction a as [|x a IH]; cbn; [exact I|split; [left; reflexivity|exact IH]]. Qed.
Lemma fitr_trans : forall a b c, fitr a b -> fitr b c -> fitr a c.
Proof.
  induction a as [|x a IH]; intros [|y b] [|z c]; cbn; try tauto. intros [H1 H2] [K1 K2]. split; [|exact (IH _ _ H2 K2)].
  destruct H1 as [->|H1]; [exact K1|right; exact H1].
Qed.
Lemma fitr_antisym : forall a b, fitr a b -> fitr b a -> a = b.
Proof.
  induction a as [|x a IH]; intros [|y b]; cbn; try tauto. intros [H1 H2] [K1 K2]. rewrite (IH _ H2 K2). f_equal. lia.
Qed.
Lemma bc_rev_spec : forall a b, match bc_rev a b with
  | Ok t => fitr a t /\ fitr b t /\ forall u, fitr a u -> fitr b u -> fitr t u
  | Err e => e = ValueError /\ forall u, fitr a u -> fitr b u -> False end.
Proof.
  induction a as [|x a IH]; intros b.
  - cbn. split; [exact I|]. split; [apply fitr_refl|tauto].
  - destruct b as [|y b]; [cbn [bc_rev]; split; [apply fitr_refl|split; [exact I|tauto]]|]. cbn [bc_rev]. unfold bc_dim. specialize (IH b).
    destruct (Nat.eqb_spec x y) as [E|E]; [|destruct (Nat.eqb_spec x 1) as [F|F]; [|destruct (Nat.eqb_spec y 1) as [G|G]]]; cbn [bind].
    4: { split; [reflexivity|]. intros [|z u]; cbn; [tauto|]. intros [H1 _] [K1 _]. lia. }
    all: destruct (bc_rev a b) as [t|e]; cbn [bind].
    all: try (destruct IH as [-> IH]; split; [reflexivity|]; intros [|z u]; cbn; [tauto|]; intros [_ H] [_ K]; exact (IH u H K)).
    all: destruct IH as (I1 & I2 & I3); cbn [fitr]; repeat split; try assumption; try lia; intros [|z u]; cbn [fitr]; [tauto|]; intros [H1 H2] [K1 K2]; split; [lia|exact (I3 u H2 K2)].
Qed.
Lemma fits_refl : forall a, fits a a. Proof. intros a. apply fits_rev, fitr_refl. Qed.
Lemma fits_trans : forall a b c, fits a b -> fits b c -> fits a c.
Proof. intros a b c. rewrite !fits_rev. apply fitr_trans. Qed.
Lemma fits_antisym : forall a b, fits a b -> fits b a -> a = b.
Proof. intros a b. rewrite !fits_rev. intros H K. rewrite <- (rev_involutive a), <- (rev_involutive b). f_equal. apply fitr_antisym; assumption. Qed.
Lemma bc2_spec : forall a b, match bc2 a b with
  | Ok t => fits a t /\ fits b t /\ forall u, fits a u -> fits b u -> fits t u
  | Err e => e = ValueError /\ forall u, fits a u -> fits b u -> False end.
Proof.
  intros a b. unfold bc2. pose proof (bc_rev_spec (rev a) (rev b)) as H. destruct (bc_rev (rev a) (rev b)) as [t|e]; cbn [bind].
  - destruct H as (H1 & H2 & H3). rewrite !(fits_rev _ (rev t)), rev_involutive. split; [exact H1|]. split; [exact H2|]. intros u. rewrite !fits_rev, rev_involutive. apply H3.
  - destruct H as (-> & H). split; [reflexivity|]. intros u. rewrite !fits_rev. apply H.
Qed.
Lemma bc_all_spec : forall l acc, match bc_all acc l with
  | Ok t => (forall s, In s (acc :: l) -> fits s t) /\ forall u, (forall s, In s (acc :: l) -> fits s u) -> fits t u
  | Err e => e = ValueError /\ forall u, (forall s, In s (acc :: l) -> fits s u) -> False end.
Proof.
  induction l as [|s l IH]; intros acc; cbn [bc_all].
  - split; [intros s [<-|[]]; apply fits_refl|]. intros u H. apply H. left; reflexivity.
  - pose proof (bc2_spec acc s) as B. destruct (bc2 acc s) as [a|e]; cbn [bind].
    + destruct B as (B1 & B2 & B3). specialize (IH a). destruct (bc_all a l) as [t|e].
      * destruct IH as [I1 I2]. assert (fits a t) as At by (apply I1; left; reflexivity). split.
        -- intros r [<-|[<-|Hr]]; [exact (fits_trans _ _ _ B1 At)|exact (fits_trans _ _ _ B2 At)|apply I1; right; exact Hr].
        -- intros u H. apply I2. intros r [<-|Hr]; [apply B3; apply H; [left|right; left]; reflexivity|apply H; right; right; exact Hr].
      * destruct IH as [-> IH]. split; [reflexivity|]. intros u H. apply (IH u). intros r [<-|Hr]; [apply B3; apply H; [left|right; left]; reflexivity|apply H; right; right; exact Hr].
    + destruct B as [-> B]. split; [reflexivity|]. intros u H. apply (B u); apply H; [left|right; left]; reflexivity.
Qed.
Lemma fits_nil : forall t, fits [] t. Proof. intros t. split; [cbn; lia|cbn; intros i H; lia]. Qed.

(* the common shape is the smallest one to which all shapes can be stretched *)
Definition given_shapes (shapes : list (list nat)) (shape : option (list nat)) : list (list nat) := match shape with None => shapes | Some s => s :: shapes end.
Lemma given_in : forall shapes shape u, (forall s, In s ((match shape with None => [] | Some s => s end) :: shapes) -> fits s u) <-> (forall s, In s (given_shapes shapes shape) -> fits s u).
Proof. intros shapes [s0|] u; cbn [given_shapes]; [tauto|]. split; intros H s Hs; [apply H; right; exact Hs|destruct Hs as [<-|Hs]; [apply fits_nil|apply H, Hs]]. Qed.
Lemma common_least : forall shapes shape t, common_shape shapes shape = Ok t ->
  (forall s, In s shapes -> fits s t) /\ (forall s, shape = Some s -> fits s t) /\
  forall u, (forall s, In s shapes -> fits s u) -> (forall s, shape = Some s -> fits s u) -> fits t u.
Proof.
  intros shapes shape t H. unfold common_shape in H. pose proof (bc_all_spec shapes (match shape with None => [] | Some s => s end)) as B. rewrite H in B.
  destruct B as [B1 B2]. split; [intros s Hs; apply B1; right; exact Hs|]. split; [intros s ->; apply B1; left; reflexivity|].
  intros u H1 H2. apply B2. intros s [<-|Hs]; [|apply H1, Hs]. destruct shape as [s0|]; [apply H2; reflexivity|apply fits_nil].
Qed.
Lemma common_exists : forall shapes shape, (exists u, (forall s, In s shapes -> fits s u) /\ forall s, shape = Some s -> fits s u) -> exists t, common_shape shapes shape = Ok t.
Proof.
  intros shapes shape (u & H1 & H2). unfold common_shape. pose proof (bc_all_spec shapes (match shape with None => [] | Some s => s end)) as B.
  destruct (bc_all _ _) as [t|e]; [exists t; reflexivity|]. destruct B as [_ B]. exfalso. apply (B u). intros s [<-|Hs]; [|apply H1, Hs].
  destruct shape as [s0|]; [apply H2; reflexivity|apply fits_nil].
Qed.
Lemma common_error : forall shapes shape, ~ (exists u, (forall s, In s shapes -> fits s u) /\ forall s, shape = Some s -> fits s u) -> common_shape shapes shape = Err ValueError.
Proof.
  intros shapes shape N. unfold common_shape. pose proof (bc_all_spec shapes (match shape with None => [] | Some s => s end)) as B.
  destruct (bc_all _ _) as [t|e]; [|destruct B as [-> _]; reflexivity]. exfalso. apply N. exists t. destruct B as [B _]. split; [intros s Hs; apply B; right; exact Hs|intros s ->; apply B; left; reflexivity].
Qed.
Lemma common_order : forall shapes shapes' shape, Permutation shapes shapes' -> common_shape shapes shape = common_shape shapes' shape.
Proof.
  intros l l' shape P. unfold common_shape. set (a := match shape with None => [] | Some s => s end).
  assert (forall u, (forall s, In s (a :: l) -> fits s u) <-> (forall s, In s (a :: l') -> fits s u)) as Q.
  { intros u. split; intros H s [<-|Hs]; try (apply H; left; reflexivity); apply H; right; [apply (Permutation_in _ (Permutation_sym P)), Hs|apply (Permutation_in _ P), Hs]. }
  pose proof (bc_all_spec l a) as B. pose proof (bc_all_spec l' a) as C. destruct (bc_all a l) as [t|e], (bc_all a l') as [t'|e'].
  - destruct B as [B1 B2], C as [C1 C2]. f_equal. apply fits_antisym; [apply B2, Q, C1|apply C2, Q, B1].
  - destruct B as [B1 _], C as [_ C]. exfalso. exact (C t (proj1 (Q t) B1)).
  - destruct B as [_ B], C as [C1 _]. exfalso. exact (B t' (proj2 (Q t') C1)).
  - destruct B as [-> _], C as [-> _]. reflexivity.
Qed.
