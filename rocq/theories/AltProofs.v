(* The turning points of the rainflow cycles above a threshold are alternately minima and maxima. *)
From Verif Require Import Base CrossSpec RfcSpec.
Local Open Scope Z_scope.

(* bounded searches *)
Lemma some_or_none (P : nat -> Prop) (D : forall k, P k \/ ~ P k) b : (exists k, (k < b)%nat /\ P k) \/ (forall k, (k < b)%nat -> ~ P k).
Proof.
  induction b as [|b [[k [L H]]|N]]; [right; intros; lia|left; exists k; split; [lia|exact H]|]. destruct (D b) as [H|H]; [left; exists b; split; [lia|exact H]|right]. intros k L. destruct (Nat.eq_dec k b) as [->|]; [exact H|apply N; lia].
Qed.
Lemma latest (P : nat -> Prop) (D : forall k, P k \/ ~ P k) b : (exists k, (k < b)%nat /\ P k /\ forall j, (k < j < b)%nat -> ~ P j) \/ (forall k, (k < b)%nat -> ~ P k).
Proof.
  induction b as [|b IH]; [right; intros; lia|]. destruct (D b) as [H|H]; [left; exists b; repeat split; [lia|exact H|intros; lia]|]. destruct IH as [[k [L [Hk N]]]|N].
  - left. exists k. split; [lia|]. split; [exact Hk|]. intros j Hj. destruct (Nat.eq_dec j b) as [->|]; [exact H|apply N; lia].
  - right. intros k L. destruct (Nat.eq_dec k b) as [->|]; [exact H|apply N; lia].
Qed.
Lemma first (P : nat -> Prop) (D : forall k, P k \/ ~ P k) a b : (exists k, (a <= k < b)%nat /\ P k /\ forall j, (a <= j < k)%nat -> ~ P j) \/ (forall k, (a <= k < b)%nat -> ~ P k).
Proof.
  induction b as [|b IH]; [right; intros; lia|]. destruct IH as [[k [L [Hk N]]]|N]; [left; exists k; split; [lia|]; split; [exact Hk|exact N]|]. destruct (le_lt_dec a b) as [G|G]; [|right; intros; lia].
  destruct (D b) as [H|H]; [left; exists b; split; [lia|]; split; [exact H|exact N]|right]. intros k L. destruct (Nat.eq_dec k b) as [->|]; [exact H|apply N; lia].
Qed.
Lemma best (P : nat -> Prop) (f : nat -> Z) (D : forall k, P k \/ ~ P k) b : (exists k, (k < b)%nat /\ P k) -> exists p, (p < b)%nat /\ P p /\ forall j, (j < b)%nat -> P j -> f p <= f j /\ (f j = f p -> (j <= p)%nat).
Proof.
  induction b as [|b IH]; intros [k [L H]]; [lia|]. destruct (some_or_none P D b) as [E|N].
  - destruct (IH E) as [p [Lp [Pp M]]]. destruct (D b) as [Hb|Hb].
    + destruct (Z_le_dec (f b) (f p)) as [G|G].
      * exists b. split; [lia|]. split; [exact Hb|]. intros j Lj Pj. destruct (Nat.eq_dec j b) as [->|]; [split; [lia|lia]|]. destruct (M j ltac:(lia) Pj). split; [lia|intros; lia].
      * exists p. split; [lia|]. split; [exact Pp|]. intros j Lj Pj. destruct (Nat.eq_dec j b) as [->|]; [split; [lia|lia]|]. apply M; [lia|exact Pj].
    + exists p. split; [lia|]. split; [exact Pp|]. intros j Lj Pj. destruct (Nat.eq_dec j b) as [->|]; [contradiction|]. apply M; [lia|exact Pj].
  - assert (k = b) by (destruct (Nat.eq_dec k b); [assumption|exfalso; apply (N k); [lia|exact H]]). subst k. exists b. split; [lia|]. split; [exact H|]. intros j Lj Pj. destruct (Nat.eq_dec j b) as [->|]; [split; lia|]. exfalso. apply (N j); [lia|exact Pj].
Qed.
Lemma dec_all (P : nat -> Prop) (D : forall k, P k \/ ~ P k) a b : (forall k, (a <= k < b)%nat -> P k) \/ ~ (forall k, (a <= k < b)%nat -> P k).
Proof.
  destruct (first (fun k => ~ P k) (fun k => match D k with or_introl h => or_intror (fun n => n h) | or_intror h => or_introl h end) a b) as [[k [L [H _]]]|N].
  - right. intros A. apply H, A, L.
  - left. intros k L. destruct (D k) as [H|H]; [exact H|]. exfalso. exact (N k L H).
Qed.
Lemma dec_and (P Q : Prop) : P \/ ~ P -> Q \/ ~ Q -> (P /\ Q) \/ ~ (P /\ Q). Proof. tauto. Qed.
Lemma dec_imp (P Q : Prop) : P \/ ~ P -> Q \/ ~ Q -> (P -> Q) \/ ~ (P -> Q). Proof. tauto. Qed.
Ltac dz := cbv beta; lazymatch goal with |- (?a <= ?b)%Z \/ _ => destruct (Z_le_dec a b); [left|right]; lia | |- (?a < ?b)%Z \/ _ => destruct (Z_lt_dec a b); [left|right]; lia end.

Lemma LeftSpan_dec y i j : LeftSpan y i j \/ ~ LeftSpan y i j.
Proof. unfold LeftSpan. apply dec_and; [destruct (le_dec j i); [left|right]; lia|]. apply (dec_all (fun k => mx y k <= mx y i)). intros k. dz. Qed.
Lemma RightSpan_dec y nc i j : RightSpan y nc i j \/ ~ RightSpan y nc i j.
Proof.
  unfold RightSpan. apply dec_and; [destruct (lt_dec i j); [|right; lia]; destruct (le_dec j nc); [left|right]; lia|].
  destruct (dec_all (fun k => mx y k < mx y i) (fun k => ltac:(dz)) (S i) j) as [H|H]; [left; intros k L; apply H; lia|right]. intros A. apply H. intros k L. apply A. lia.
Qed.
Lemma LeftMin_exists y i : exists l, LeftMin y i l.
Proof.
  destruct (best (LeftSpan y i) (mn y) (LeftSpan_dec y i) (S i)) as [p [L [H M]]]; [exists i; split; [lia|]; split; [lia|intros; lia]|]. exists p. split; [exact H|]. intros j Hj. apply M; [destruct Hj; lia|exact Hj].
Qed.
Lemma RightMin_exists y nc i : (i < nc)%nat -> exists r, RightMin y nc i r.
Proof.
  intros Hi. destruct (best (RightSpan y nc i) (mn y) (RightSpan_dec y nc i) (S nc)) as [p [L [H M]]]; [exists (S i); split; [lia|]; split; [lia|intros; lia]|]. exists p. split; [exact H|]. intros j Hj. apply M; [destruct Hj; lia|exact Hj].
Qed.
Lemma Reached_dec y nc i : Reached y nc i \/ ~ Reached y nc i.
Proof.
  destruct (first (fun k => mx y i <= mx y k) (fun k => ltac:(dz)) (S i) nc) as [[k [L [H _]]]|N]; [left; exists k; split; [lia|exact H]|right]. intros [k [L H]]. apply (N k); [lia|exact H].
Qed.
Lemma Reached_first y nc i : Reached y nc i -> exists k, (i < k < nc)%nat /\ mx y i <= mx y k /\ forall j, (i < j < k)%nat -> mx y j < mx y i.
Proof.
  intros [k0 [L0 H0]]. destruct (first (fun k => mx y i <= mx y k) (fun k => ltac:(dz)) (S i) nc) as [[k [L [H M]]]|N]; [|exfalso; apply (N k0); [lia|exact H0]].
  exists k. split; [lia|]. split; [exact H|]. intros j Lj. pose proof (M j ltac:(lia)). lia.
Qed.

(* a maximum and a minimum of a cycle of range at least h *)
Definition KMax (y : list Z) (nc : nat) (h : Z) (i : nat) : Prop := (i < nc)%nat /\ exists p, RainflowMin y nc i p /\ h <= mx y i - mn y p.
Definition KMin (y : list Z) (nc : nat) (h : Z) (p : nat) : Prop := exists i, (i < nc)%nat /\ RainflowMin y nc i p /\ h <= mx y i - mn y p.

Lemma kmax_intro y nc h i j : (i < nc)%nat -> LeftSpan y i j -> h <= mx y i - mn y j -> (Reached y nc i -> exists j', RightSpan y nc i j' /\ h <= mx y i - mn y j') -> KMax y nc h i.
Proof.
  intros Hi HL Hj HR. split; [exact Hi|]. destruct (LeftMin_exists y i) as [l Hl]. destruct (RightMin_exists y nc i Hi) as [r Hr]. destruct (proj2 Hl j HL) as [A _].
  destruct (Reached_dec y nc i) as [R|R].
  - destruct (HR R) as [j' [HS Hj']]. destruct (proj2 Hr j' HS) as [B _]. destruct (Z_lt_dec (mn y l) (mn y r)) as [G|G].
    + exists r. split; [exists l, r; split; [exact Hl|]; split; [exact Hr|]; left; repeat split; assumption|lia].
    + exists l. split; [exists l, r; split; [exact Hl|]; split; [exact Hr|]; right; split; [right; lia|reflexivity]|lia].
  - exists l. split; [exists l, r; split; [exact Hl|]; split; [exact Hr|]; right; split; [left; exact R|reflexivity]|lia].
Qed.
Lemma kmax_elim y nc h i : KMax y nc h i -> (exists l, LeftMin y i l /\ h <= mx y i - mn y l) /\ (Reached y nc i -> exists r, RightMin y nc i r /\ h <= mx y i - mn y r).
Proof.
  intros [Hi [p [[l [r [Hl [Hr [[R [G E]]|[C E]]]]]] H]]]; subst p.
  - split; [exists l; split; [exact Hl|lia]|]. intros _. exists r. split; [exact Hr|exact H].
  - split; [exists l; split; [exact Hl|exact H]|]. intros R. exists r. split; [exact Hr|]. destruct C as [C|C]; [contradiction|lia].
Qed.
(* deep enough on both sides *)
Definition RightOf (y : list Z) (nc : nat) (h : Z) (r : nat) : Prop := exists k, (r <= k < nc)%nat /\ (forall j, (r < j <= k)%nat -> mn y r < mn y j) /\ mn y r + h <= mx y k.
Definition LeftOf (y : list Z) (h : Z) (r : nat) : Prop := (forall j, (j < r)%nat -> mn y r <= mn y j) \/ exists i, (i < r)%nat /\ (forall j, (i < j < r)%nat -> mn y r <= mn y j) /\ mn y r + h <= mx y i.
Lemma kmin_intro y nc h r : RightOf y nc h r -> LeftOf y h r -> KMin y nc h r.
Proof.
  intros [k [Hk [Pk Dk]]] HB.
  destruct (best (fun j => (r <= j < nc)%nat /\ forall m, (r < m <= j)%nat -> mn y r < mn y m) (fun j => - mx y j)
    (fun j => ltac:(apply dec_and; [destruct (le_dec r j); [|right; lia]; destruct (lt_dec j nc); [left|right]; lia|]; destruct (dec_all (fun m => mn y r < mn y m) (fun m => ltac:(dz)) (S r) (S j)) as [H|H]; [left; intros m L; apply H; lia|right; intros A; apply H; intros m L; apply A; lia])) nc) as [J [LJ [[RJ PJ] MJ]]].
  { exists k. split; [lia|]. split; [exact Hk|exact Pk]. }
  assert (MJk : forall j, (r <= j < nc)%nat -> (forall m, (r < m <= j)%nat -> mn y r < mn y m) -> mx y j <= mx y J /\ ((J < j)%nat -> mx y j < mx y J)).
  { intros j Lj Pj. destruct (MJ j ltac:(lia) (conj Lj Pj)) as [A B]. split; [lia|]. intros G. destruct (Z.eq_dec (mx y j) (mx y J)); [|lia]. pose proof (B ltac:(lia)). lia. }
  assert (C2 : (forall j, LeftSpan y J j -> (j <= r)%nat -> mn y r <= mn y j) -> KMin y nc h r).
  { intros HL. exists J. assert (LM : LeftMin y J r).
    { split; [split; [lia|]; intros m Lm; apply MJk; [lia|intros q Lq; apply PJ; lia]|]. intros j Hj. destruct (le_lt_dec j r) as [G|G]; [split; [apply HL; assumption|lia]|]. pose proof (PJ j ltac:(destruct Hj; lia)). split; lia. }
    split; [exact LJ|]. destruct (RightMin_exists y nc J LJ) as [r' Hr']. split; [|destruct (MJk k Hk Pk); lia]. exists r, r'. split; [exact LM|]. split; [exact Hr'|]. right. split; [|reflexivity].
    destruct (Reached_dec y nc J) as [[k2 [L2 H2]]|N]; [right|left; exact N].
    destruct (first (fun m => mn y m <= mn y r) (fun m => ltac:(dz)) (S r) (S k2)) as [[m [Lm [Hm Mm]]]|N].
    - assert (J < m)%nat by (destruct (le_lt_dec m J); [pose proof (PJ m ltac:(lia)); lia|assumption]). destruct (proj2 Hr' m) as [A _]; [|lia]. split; [lia|]. intros q Lq. apply (MJk q); [lia| |lia]. intros q' Lq'. pose proof (Mm q' ltac:(lia)). lia.
    - exfalso. destruct (MJk k2) as [_ B]; [lia|intros m Lm; pose proof (N m ltac:(lia)); lia|]. pose proof (B ltac:(lia)). lia. }
  destruct (latest (fun j => mn y j < mn y r) (fun j => ltac:(dz)) r) as [[p' [Lp [Hp Np]]]|N]; [|apply C2; intros j _ Lj; destruct (Nat.eq_dec j r) as [->|]; [lia|]; pose proof (N j ltac:(lia)); lia].
  destruct (best (fun i => (p' <= i)%nat) (fun i => - mx y i) (fun i => ltac:(destruct (le_dec p' i); [left|right]; lia)) r) as [L [LL [QL ML]]]; [exists p'; split; [exact Lp|lia]|].
  assert (MLk : forall i, (p' <= i < r)%nat -> mx y i <= mx y L /\ ((L < i)%nat -> mx y i < mx y L)).
  { intros i Li. destruct (ML i ltac:(lia) ltac:(lia)) as [A B]. split; [lia|]. intros G. destruct (Z.eq_dec (mx y i) (mx y L)); [|lia]. pose proof (B ltac:(lia)). lia. }
  assert (Low : forall j, (p' < j < r)%nat -> mn y r <= mn y j) by (intros j Lj; pose proof (Np j ltac:(lia)); lia).
  destruct (Z_le_dec (mx y L) (mx y J)) as [G|G].
  - exists L. split; [lia|]. assert (RM : RightMin y nc L r).
    { split; [split; [lia|]; intros q Lq; apply (MLk q); lia|]. intros j [Lj Hj]. destruct (le_lt_dec j r) as [G'|G']; [destruct (Nat.eq_dec j r) as [->|]; [split; lia|pose proof (Low j ltac:(lia)); split; lia]|].
      assert (j <= J)%nat by (destruct (le_lt_dec j J); [assumption|pose proof (Hj J ltac:(lia)); lia]). pose proof (PJ j ltac:(lia)). split; lia. }
    destruct (LeftMin_exists y L) as [l Hl]. assert (mn y l <= mn y p') by (apply (proj2 Hl); split; [lia|]; intros q Lq; apply (MLk q); lia).
    split; [exists l, r; split; [exact Hl|]; split; [exact RM|]; left; split; [exists J; split; [lia|exact G]|]; split; [lia|reflexivity]|].
    destruct HB as [A|[i [Li [Hi Di]]]]; [pose proof (A p' Lp); lia|]. assert (p' <= i)%nat by (destruct (le_lt_dec p' i); [assumption|pose proof (Hi p' ltac:(lia)); lia]). pose proof (proj1 (MLk i ltac:(lia))). lia.
  - apply C2. intros j [Lj Hj] Gj. destruct (Nat.eq_dec j r) as [->|]; [lia|]. apply Low. split; [|lia]. destruct (le_lt_dec j L) as [B|B]; [pose proof (Hj L ltac:(lia)); lia|lia].
Qed.
Lemma left_of y h i p : LeftMin y i p -> mn y p + h <= mx y i -> LeftOf y h p.
Proof.
  intros [[Lp Hp] Mp] H. destruct (latest (fun k => mx y i < mx y k) (fun k => ltac:(dz)) p) as [[k [Lk [Hk Nk]]]|N].
  - right. exists k. split; [exact Lk|]. split; [|lia]. intros j Lj. apply (Mp j). split; [lia|]. intros q Lq. destruct (le_lt_dec p q); [apply Hp; lia|]. pose proof (Nk q ltac:(lia)). lia.
  - left. intros j Lj. apply (Mp j). split; [lia|]. intros q Lq. destruct (le_lt_dec p q); [apply Hp; lia|]. pose proof (N q ltac:(lia)). lia.
Qed.
Lemma left_min_right_of y nc h i p : (i < nc)%nat -> LeftMin y i p -> mn y p + h <= mx y i -> RightOf y nc h p.
Proof.
  intros Hi [[Lp Hp] Mp] H. exists i. split; [lia|]. split; [|exact H]. intros j Lj. destruct (Mp j) as [A B]; [split; [lia|]; intros q Lq; apply Hp; lia|]. destruct (Z.eq_dec (mn y j) (mn y p)) as [E|]; [pose proof (B E); lia|lia].
Qed.
Lemma right_min_of y nc h i p : Reached y nc i -> RightMin y nc i p -> mn y p + h <= mx y i -> RightOf y nc h p /\ LeftOf y h p /\ (exists k, (p <= k < nc)%nat /\ mx y i <= mx y k /\ forall j, (i < j < k)%nat -> mx y j < mx y i).
Proof.
  intros R [[Lp Hp] Mp] H. destruct (Reached_first y nc i R) as [k [Lk [Hk Nk]]]. assert (p <= k)%nat by (destruct (le_lt_dec p k); [assumption|pose proof (Hp k ltac:(lia)); lia]). split; [|split].
  - exists k. split; [lia|]. split; [|lia]. intros j Lj. destruct (Mp j) as [A B]; [split; [lia|]; intros q Lq; apply Nk; lia|]. destruct (Z.eq_dec (mn y j) (mn y p)) as [E|]; [pose proof (B E); lia|lia].
  - right. exists i. split; [lia|]. split; [|exact H]. intros j Lj. apply (Mp j). split; [lia|]. intros q Lq. apply Hp. lia.
  - exists k. split; [lia|]. split; [exact Hk|exact Nk].
Qed.
Lemma kmin_elim y nc h p : KMin y nc h p -> RightOf y nc h p /\ LeftOf y h p.
Proof.
  intros [i [Hi [[l [r [Hl [Hr [[R [G E]]|[C E]]]]]] H]]]; subst p.
  - destruct (right_min_of y nc h i r R Hr ltac:(lia)) as [A [B _]]. split; assumption.
  - split; [apply (left_min_right_of y nc h i l Hi Hl); lia|apply (left_of y h i l Hl); lia].
Qed.
Lemma kmin_before y nc h i : KMax y nc h i -> exists p, (p <= i)%nat /\ KMin y nc h p.
Proof.
  intros K. pose proof (proj1 K) as Hi. destruct (kmax_elim _ _ _ _ K) as [[l [Hl H]] _]. exists l. split; [destruct Hl as [[A _] _]; exact A|]. apply kmin_intro; [apply (left_min_right_of y nc h i l Hi Hl); lia|apply (left_of y h i l Hl); lia].
Qed.
Lemma kmin_between y nc h i i' : KMax y nc h i -> KMax y nc h i' -> (i < i')%nat -> exists p, (i < p <= i')%nat /\ KMin y nc h p.
Proof.
  intros K K' L. pose proof (proj1 K') as Hi'. destruct (Z_le_dec (mx y i) (mx y i')) as [G|G].
  - assert (R : Reached y nc i) by (exists i'; split; [lia|exact G]). destruct (proj2 (kmax_elim _ _ _ _ K) R) as [r [Hr H]]. destruct (right_min_of y nc h i r R Hr ltac:(lia)) as [A [B [k [Lk [_ Nk]]]]]. exists r. split; [|apply kmin_intro; assumption].
    destruct Hr as [[Lr _] _]. split; [lia|]. destruct (le_lt_dec k i'); [lia|]. pose proof (Nk i' ltac:(lia)). lia.
  - destruct (proj1 (kmax_elim _ _ _ _ K')) as [l [Hl H]]. exists l. split; [|apply kmin_intro; [apply (left_min_right_of y nc h i' l Hi' Hl); lia|apply (left_of y h i' l Hl); lia]].
    destruct Hl as [[Ll Sl] _]. split; [|lia]. destruct (le_lt_dec l i) as [B|B]; [|lia]. pose proof (Sl i ltac:(lia)). lia.
Qed.
Lemma kmax_between y nc h p p' : KMin y nc h p -> KMin y nc h p' -> (p < p')%nat -> exists i, (p <= i < p')%nat /\ KMax y nc h i.
Proof.
  intros K K' L. destruct (kmin_elim _ _ _ _ K) as [[k [Lk [Hk Dk]]] _]. destruct (kmin_elim _ _ _ _ K') as [[k' [Lk' _]] LO].
  destruct (best (fun i => (p <= i)%nat) (fun i => - mx y i) (fun i => ltac:(destruct (le_dec p i); [left|right]; lia)) p') as [I [LI [QI MI]]]; [exists p; split; [exact L|lia]|].
  assert (MIk : forall i, (p <= i < p')%nat -> mx y i <= mx y I /\ ((I < i)%nat -> mx y i < mx y I)).
  { intros i Li. destruct (MI i ltac:(lia) ltac:(lia)) as [A B]. split; [lia|]. intros G. destruct (Z.eq_dec (mx y i) (mx y I)); [|lia]. pose proof (B ltac:(lia)). lia. }
  assert (D : mn y p + h <= mx y I /\ mn y p' + h <= mx y I).
  { destruct (Z_lt_dec (mn y p) (mn y p')) as [G|G].
    - destruct LO as [A|[i0 [L0 [H0 D0]]]]; [pose proof (A p L); lia|]. assert (p <= i0)%nat by (destruct (le_lt_dec p i0); [assumption|pose proof (H0 p ltac:(lia)); lia]). pose proof (proj1 (MIk i0 ltac:(lia))). lia.
    - assert (k < p')%nat by (destruct (le_lt_dec p' k); [pose proof (Hk p' ltac:(lia)); lia|assumption]). pose proof (proj1 (MIk k ltac:(lia))). lia. }
  exists I. split; [lia|]. apply kmax_intro with (j := p); [lia|split; [exact QI|]; intros q Lq; apply (MIk q); lia|lia|]. intros _. exists p'. split; [split; [lia|]; intros q Lq; apply (MIk q); lia|lia].
Qed.
Lemma InRainflow_iff y nc h idx : InRainflow y nc h idx <-> (exists i, idx = (2 * i + 1)%nat /\ KMax y nc h i) \/ (exists p, idx = (2 * p)%nat /\ KMin y nc h p).
Proof.
  split.
  - intros [i [p [Hi [HR [H [E|E]]]]]]; [left; exists i; split; [exact E|]; split; [exact Hi|]; exists p; split; assumption|right; exists p; split; [exact E|]; exists i; split; [exact Hi|split; assumption]].
  - intros [[i [E [Hi [p [HR H]]]]]|[p [E [i [Hi [HR H]]]]]]; exists i, p; repeat split; try assumption; [left|right]; exact E.
Qed.
(* the sorted list of the turning points of the cycles *)
Lemma sorted_between l a b c : increasing l -> (S a < List.length l)%nat -> (nth a l 0 < c < nth (S a) l 0)%nat -> In c l -> b = a -> False.
Proof.
  intros I L B C _. apply In_nth with (d := 0%nat) in C. destruct C as [j [Lj E]]. subst c. destruct (lt_eq_lt_dec j a) as [[G|G]|G]; [pose proof (I j a ltac:(lia)); lia|subst; lia|]. destruct (Nat.eq_dec j (S a)) as [->|]; [lia|]. pose proof (I (S a) j ltac:(lia)). lia.
Qed.
Lemma alternates y nc h l : increasing l -> (forall k, In k l <-> InRainflow y nc h k) -> forall j, (j < List.length l)%nat -> Nat.odd (nth j l 0%nat) = Nat.odd j.
Proof.
  intros I M. induction j as [|j IH]; intros L.
  - pose proof (proj1 (M _) (nth_In l 0%nat L)) as H. apply InRainflow_iff in H. destruct H as [[i [E K]]|[p [E _]]].
    + exfalso. destruct (kmin_before _ _ _ _ K) as [p [Lp Kp]]. assert (In (2 * p)%nat l) as C by (apply M, InRainflow_iff; right; exists p; split; [reflexivity|exact Kp]). apply In_nth with (d := 0%nat) in C. destruct C as [j [Lj Ej]]. destruct j as [|j]; [lia|]. pose proof (I 0%nat (S j) ltac:(lia)). lia.
    + rewrite E. rewrite Nat.odd_mul. reflexivity.
  - assert (IHj := IH ltac:(lia)). clear IH. pose proof (proj1 (M _) (nth_In l 0%nat L)) as H1. pose proof (proj1 (M _) (nth_In l 0%nat (Nat.lt_succ_l _ _ L))) as H0. apply InRainflow_iff in H0, H1. pose proof (I j (S j) ltac:(lia)) as LT. rewrite Nat.odd_succ, <- Nat.negb_odd, <- IHj.
    assert (OD : forall i, Nat.odd (2 * i + 1) = true) by (intros i; apply Nat.odd_spec; exists i; lia). assert (EV : forall p, Nat.odd (2 * p) = false) by (intros p; rewrite Nat.odd_mul; reflexivity).
    destruct H0 as [[i [E0 K0]]|[p [E0 K0]]], H1 as [[i' [E1 K1]]|[p' [E1 K1]]]; rewrite E0, E1, ?OD, ?EV; try reflexivity; exfalso.
    + destruct (kmin_between _ _ _ _ _ K0 K1 ltac:(lia)) as [p [Lp Kp]]. apply (sorted_between l j j (2 * p)%nat I L); [lia|apply M, InRainflow_iff; right; exists p; split; [reflexivity|exact Kp]|reflexivity].
    + destruct (kmax_between _ _ _ _ _ K0 K1 ltac:(lia)) as [i [Li Ki]]. apply (sorted_between l j j (2 * i + 1)%nat I L); [lia|apply M, InRainflow_iff; left; exists i; split; [reflexivity|exact Ki]|reflexivity].
Qed.
