(* The exchanged square is magic. *)
From Coq Require Import ZArith List Lia Bool.
From Verif Require Import Base MagicModel MagicSpec MagicProofs MagicProofs2.
Import ListNotations.
Local Open Scope Z_scope.

Definition ind (b : bool) : Z := if b then 1 else 0.
(* the four quadrants of even_entry *)
Lemma entry_ul p k f a b : (a < p)%nat -> (b < p)%nat -> even_entry p k f a b = f a b + Z.of_nat p * Z.of_nat p * (3 * ind (toggled p k a b)).
Proof.
  intros A B. unfold even_entry, block, row, partner. destruct (Nat.ltb_spec a p); [|lia]. destruct (Nat.ltb_spec b p); [|lia]. destruct (toggled p k a b); cbn [ind].
  - destruct (Nat.ltb_spec (a + p) p); [lia|]. replace (a + p - p)%nat with a by lia. ring.
  - destruct (Nat.ltb_spec a p); [|lia]. ring.
Qed.
Lemma entry_ur p k f a b : (a < p)%nat -> (b < p)%nat -> even_entry p k f a (p + b) = f a b + Z.of_nat p * Z.of_nat p * (2 - ind (toggled p k a (p + b))).
Proof.
  intros A B. unfold even_entry, block, row, partner. destruct (Nat.ltb_spec a p); [|lia]. destruct (Nat.ltb_spec (p + b) p); [lia|]. replace (p + b - p)%nat with b by lia. destruct (toggled p k a (p + b)); cbn [ind].
  - destruct (Nat.ltb_spec (a + p) p); [lia|]. replace (a + p - p)%nat with a by lia. ring.
  - destruct (Nat.ltb_spec a p); [|lia]. ring.
Qed.
Lemma entry_ll p k f a b : (a < p)%nat -> (b < p)%nat -> even_entry p k f (p + a) b = f a b + Z.of_nat p * Z.of_nat p * (3 - 3 * ind (toggled p k a b)).
Proof.
  intros A B. unfold even_entry, block, row, partner. destruct (Nat.ltb_spec (p + a) p); [lia|]. destruct (Nat.ltb_spec b p); [|lia]. replace (p + a - p)%nat with a by lia. destruct (toggled p k a b); cbn [ind].
  - destruct (Nat.ltb_spec a p); [|lia]. ring.
  - destruct (Nat.ltb_spec (p + a) p); [lia|]. replace (p + a - p)%nat with a by lia. ring.
Qed.
Lemma entry_lr p k f a b : (a < p)%nat -> (b < p)%nat -> even_entry p k f (p + a) (p + b) = f a b + Z.of_nat p * Z.of_nat p * (1 + ind (toggled p k a (p + b))).
Proof.
  intros A B. unfold even_entry, block, row, partner. destruct (Nat.ltb_spec (p + a) p); [lia|]. destruct (Nat.ltb_spec (p + b) p); [lia|]. replace (p + b - p)%nat with b by lia. replace (p + a - p)%nat with a by lia. destruct (toggled p k a (p + b)); cbn [ind].
  - destruct (Nat.ltb_spec a p); [|lia]. ring.
  - destruct (Nat.ltb_spec (p + a) p); [lia|]. replace (p + a - p)%nat with a by lia. ring.
Qed.
Lemma count n t lo hi : (lo <= hi <= n)%nat -> (forall i, (i < n)%nat -> t i = true <-> (lo <= i < hi)%nat) -> zs n (fun i => ind (t i)) = Z.of_nat hi - Z.of_nat lo.
Proof.
  intros L H. rewrite <- (zs_count n lo hi L). apply zs_ext. intros i I. specialize (H i I). unfold ind. destruct (t i); destruct (Nat.leb_spec lo i); destruct (Nat.ltb_spec i hi); cbn [andb]; try reflexivity; exfalso.
  all: try (assert (lo <= i < hi)%nat by (apply H; reflexivity); lia). assert (false = true) by (apply H; lia). discriminate.
Qed.
Ltac tog := unfold toggled; repeat match goal with |- context [(?a =? ?b)%nat] => destruct (Nat.eqb_spec a b) | |- context [(?a <=? ?b)%nat] => destruct (Nat.leb_spec a b) | |- context [(?a <? ?b)%nat] => destruct (Nat.ltb_spec a b) end; cbn [andb orb]; split; intros; try reflexivity; try discriminate; try lia.
Lemma count_left p k r : (1 <= k)%nat -> p = (2 * k + 1)%nat -> (r < p)%nat -> zs p (fun b => ind (toggled p k r b)) = Z.of_nat k.
Proof.
  intros K E R. destruct (Nat.eq_dec r k) as [->|N].
  - rewrite (count p _ 1 (k + 1)) by (try lia; intros i I; tog). lia.
  - rewrite (count p _ 0 k) by (try lia; intros i I; tog). lia.
Qed.
Lemma count_right p k r : (1 <= k)%nat -> p = (2 * k + 1)%nat -> (r < p)%nat -> zs p (fun b => ind (toggled p k r (p + b))) = Z.of_nat k - 1.
Proof. intros K E R. rewrite (count p _ (p - k + 1) p) by (try lia; intros i I; tog). lia. Qed.
Lemma count_diag p k : (1 <= k)%nat -> p = (2 * k + 1)%nat -> zs p (fun i => ind (toggled p k i i)) = Z.of_nat k + 1.
Proof. intros K E. rewrite (count p _ 0 (k + 1)) by (try lia; intros i I; tog). lia. Qed.
Lemma count_diag' p k : (1 <= k)%nat -> p = (2 * k + 1)%nat -> zs p (fun i => ind (toggled p k i (p + i))) = Z.of_nat k - 1.
Proof. intros K E. rewrite (count p _ (p - k + 1) p) by (try lia; intros i I; tog). lia. Qed.
Lemma count_anti p k : (1 <= k)%nat -> p = (2 * k + 1)%nat -> zs p (fun i => ind (toggled p k i (p + (p - 1 - i)))) = Z.of_nat k - 1.
Proof. intros K E. rewrite (count p _ 0 (k - 1)) by (try lia; intros i I; tog). lia. Qed.
Lemma count_anti' p k : (1 <= k)%nat -> p = (2 * k + 1)%nat -> zs p (fun i => ind (toggled p k i (p - 1 - i))) = Z.of_nat k + 1.
Proof. intros K E. rewrite (count p _ k p) by (try lia; intros i I; tog). lia. Qed.

Lemma halves p g h h' : (forall b, (b < p)%nat -> g b = h b) -> (forall b, (b < p)%nat -> g (p + b)%nat = h' b) -> zs (2 * p) g = zs p h + zs p h'.
Proof. intros A B. replace (2 * p)%nat with (p + p)%nat by lia. rewrite zs_split. rewrite (zs_ext p g h A), (zs_ext p (fun i => g (p + i)%nat) h' B). reflexivity. Qed.
Lemma zs_lin n (f : nat -> Z) q c d t : zs n (fun i => f i + q * (c + d * ind (t i))) = zs n f + q * (Z.of_nat n * c + d * zs n (fun i => ind (t i))).
Proof. rewrite zs_add. rewrite (zs_scal n q). rewrite (zs_add n (fun _ => c)), zs_const, zs_scal. ring. Qed.

Lemma even_good p k f : (1 <= k)%nat -> p = (2 * k + 1)%nat -> good p f -> good (2 * p) (even_entry p k f).
Proof.
  intros K E [R [I [Rw [Cl [Dg Ad]]]]]. unfold good. cbv zeta in *. assert (EN : Z.of_nat (2 * p) = 2 * Z.of_nat p) by lia. rewrite EN. clear EN. assert (EP : Z.of_nat p = 2 * Z.of_nat k + 1) by lia.
  set (P := Z.of_nat p) in *. assert (PP : 0 < P) by lia.
  (* every cell is in one of the four quadrants *)
  assert (QV : forall a b, (a < 2 * p)%nat -> (b < 2 * p)%nat -> exists a' b' c, (a' < p)%nat /\ (b' < p)%nat /\ 0 <= c < 4 /\ even_entry p k f a b = f a' b' + P * P * c /\
     (a = a' \/ a = (p + a')%nat) /\ (b = b' \/ b = (p + b')%nat) /\
     c = (if (b <? p)%nat then (if (a <? p)%nat then 3 * ind (toggled p k a' b) else 3 - 3 * ind (toggled p k a' b)) else (if (a <? p)%nat then 2 - ind (toggled p k a' b) else 1 + ind (toggled p k a' b)))).
  { intros a b A B. destruct (Nat.ltb_spec a p) as [A'|A']; destruct (Nat.ltb_spec b p) as [B'|B'].
    - exists a, b. eexists. split; [exact A'|]. split; [exact B'|]. split; [|split; [apply entry_ul; assumption|]]; [destruct (toggled p k a b); cbn; lia|]. repeat split; left; reflexivity.
    - exists a, (b - p)%nat. eexists. split; [exact A'|]. split; [lia|]. split; [|split; [|split; [left; reflexivity|split; [right; lia|reflexivity]]]]; [destruct (toggled p k a b); cbn; lia|].
      replace b with (p + (b - p))%nat at 1 3 by lia. apply entry_ur; lia.
    - exists (a - p)%nat, b. eexists. split; [lia|]. split; [exact B'|]. split; [|split; [|split; [right; lia|split; [left; reflexivity|reflexivity]]]]; [destruct (toggled p k (a - p) b); cbn; lia|].
      replace a with (p + (a - p))%nat at 1 by lia. apply entry_ll; lia.
    - exists (a - p)%nat, (b - p)%nat. eexists. split; [lia|]. split; [lia|]. split; [|split; [|split; [right; lia|split; [right; lia|reflexivity]]]]; [destruct (toggled p k (a - p) b); cbn; lia|].
      replace a with (p + (a - p))%nat at 1 by lia. replace b with (p + (b - p))%nat at 1 3 by lia. apply entry_lr; lia. }
  assert (S2 : forall t, 2 * t = P * (P * P + 1) -> forall u, 2 * u = P * (P * P + 1) -> 2 * (t + u) = 2 * (P * (P * P + 1))) by (intros; lia).
  split; [|split; [|split; [|split; [|split]]]].
  - intros a b A B. destruct (QV a b A B) as [a' [b' [c [A' [B' [C [-> _]]]]]]]. specialize (R a' b' A' B'). nia.
  - intros a b a2 b2 A B A2 B2 EQ. destruct (QV a b A B) as [a' [b' [c [A' [B' [C [V [W [W' Ec]]]]]]]]]. destruct (QV a2 b2 A2 B2) as [a2' [b2' [c2 [A2' [B2' [C2 [V2 [W2 [W2' Ec2]]]]]]]]].
    rewrite V, V2 in EQ. assert (RA := R a' b' A' B'). assert (RB := R a2' b2' A2' B2'). assert (c = c2) by nia. assert (f a' b' = f a2' b2') by nia. destruct (I a' b' a2' b2' A' B' A2' B2' H0) as [<- <-].
    clear V V2 EQ RA RB H0. rewrite <- H, Ec in Ec2. clear Ec. unfold ind in Ec2.
    destruct W as [->| ->]; destruct W' as [->| ->]; destruct W2 as [->| ->]; destruct W2' as [->| ->]; try (split; reflexivity); exfalso;
      repeat match type of Ec2 with context [(?x <? p)%nat] => destruct (Nat.ltb_spec x p) end; try lia; destruct (toggled p k a' b'); destruct (toggled p k a' (p + b')); lia.
  - intros a A. destruct (Nat.lt_ge_cases a p) as [A'|A'].
    + rewrite (halves p _ (fun b => f a b + P * P * (0 + 3 * ind (toggled p k a b))) (fun b => f a b + P * P * (2 + -1 * ind (toggled p k a (p + b))))).
      * rewrite !zs_lin, count_left, count_right by assumption. specialize (Rw a A'). fold P. set (q := zs p (f a)) in *. nia.
      * intros b B. rewrite entry_ul by assumption. fold P. ring.
      * intros b B. rewrite entry_ur by assumption. fold P. ring.
    + replace a with (p + (a - p))%nat by lia. set (r := (a - p)%nat). assert (Hr : (r < p)%nat) by (unfold r; lia).
      rewrite (halves p _ (fun b => f r b + P * P * (3 + -3 * ind (toggled p k r b))) (fun b => f r b + P * P * (1 + 1 * ind (toggled p k r (p + b))))).
      * rewrite !zs_lin, count_left, count_right by assumption. specialize (Rw r Hr). fold P. set (q := zs p (f r)) in *. nia.
      * intros b B. rewrite entry_ll by assumption. fold P. ring.
      * intros b B. rewrite entry_lr by assumption. fold P. ring.
  - intros b B. destruct (Nat.lt_ge_cases b p) as [B'|B'].
    + rewrite (halves p _ (fun a => f a b + P * P * (0 + 3 * ind (toggled p k a b))) (fun a => f a b + P * P * (3 + -3 * ind (toggled p k a b)))).
      * rewrite !zs_lin. specialize (Cl b B'). fold P. set (q := zs p (fun i => f i b)) in *. set (z := zs p (fun i => ind (toggled p k i b))). nia.
      * intros a A. rewrite entry_ul by assumption. fold P. ring.
      * intros a A. rewrite entry_ll by assumption. fold P. ring.
    + replace b with (p + (b - p))%nat by lia. set (r := (b - p)%nat). assert (Hr : (r < p)%nat) by (unfold r; lia).
      rewrite (halves p _ (fun a => f a r + P * P * (2 + -1 * ind (toggled p k a (p + r)))) (fun a => f a r + P * P * (1 + 1 * ind (toggled p k a (p + r))))).
      * rewrite !zs_lin. specialize (Cl r Hr). fold P. set (q := zs p (fun i => f i r)) in *. set (z := zs p (fun i => ind (toggled p k i (p + r)))). nia.
      * intros a A. rewrite entry_ur by assumption. fold P. ring.
      * intros a A. rewrite entry_lr by assumption. fold P. ring.
  - rewrite (halves p _ (fun i => f i i + P * P * (0 + 3 * ind (toggled p k i i))) (fun i => f i i + P * P * (1 + 1 * ind (toggled p k i (p + i))))).
    + rewrite !zs_lin, count_diag, count_diag' by assumption. fold P. set (q := zs p (fun i => f i i)) in *. nia.
    + intros i Hi. rewrite entry_ul by assumption. fold P. ring.
    + intros i Hi. rewrite entry_lr by assumption. fold P. ring.
  - rewrite (halves p _ (fun i => f i (p - 1 - i)%nat + P * P * (2 + -1 * ind (toggled p k i (p + (p - 1 - i))))) (fun i => f i (p - 1 - i)%nat + P * P * (3 + -3 * ind (toggled p k i (p - 1 - i))))).
    + rewrite !zs_lin, count_anti, count_anti' by assumption. fold P. set (q := zs p (fun i => f i (p - 1 - i)%nat)) in *. nia.
    + intros i Hi. replace (2 * p - 1 - i)%nat with (p + (p - 1 - i))%nat by lia. rewrite entry_ur by (try assumption; lia). fold P. ring.
    + intros i Hi. replace (2 * p - 1 - (p + i))%nat with (p - 1 - i)%nat by lia. rewrite entry_ll by (try assumption; lia). fold P. ring.
Qed.

Lemma magic_all n : 3 <= n -> exists M, magic n = Ok M /\ magic_square (Z.to_nat n) M.
Proof.
  intros H. unfold magic. destruct (Z.ltb_spec n 3); [lia|]. set (m := Z.to_nat n). assert (Hm : (3 <= m)%nat) by (unfold m; lia). clearbody m. clear n H H0.
  assert (ODD : forall fuel m, (3 <= m)%nat -> (m mod 2 = 1)%nat -> magic_rec (S fuel) m = Ok (table m (odd_entry m)) /\ good m (odd_entry m)).
  { intros fuel k Hk O. split.
    - cbn [magic_rec]. destruct (Nat.ltb_spec k 3); [lia|]. rewrite O. reflexivity.
    - assert (D := Nat.div_mod k 2 ltac:(lia)). rewrite O in D. rewrite D. apply odd_good. lia. }
  destruct m as [|fuel]; [lia|]. destruct (Nat.eq_dec (S fuel mod 2) 1) as [O|O].
  - destruct (ODD fuel (S fuel) Hm O) as [-> G]. eexists. split; [reflexivity|]. apply good_magic. exact G.
  - assert (B2 := Nat.mod_upper_bound (S fuel) 2 ltac:(lia)). assert (D2 := Nat.div_mod (S fuel) 2 ltac:(lia)). assert (B4 := Nat.mod_upper_bound (S fuel) 4 ltac:(lia)). assert (D4 := Nat.div_mod (S fuel) 4 ltac:(lia)).
    cbn [magic_rec]. destruct (Nat.ltb_spec (S fuel) 3); [lia|]. destruct (Nat.eqb_spec (S fuel mod 2) 1) as [?|_]; [lia|]. destruct (Nat.eqb_spec (S fuel mod 4) 0) as [F|F].
    + eexists. split; [reflexivity|]. change (magic_doubly_even (S fuel)) with (table (S fuel) (even4_entry (S fuel))). apply good_magic. rewrite F in D4. rewrite Nat.add_0_r in D4. rewrite D4. apply even4_good. lia.
    + set (k := (S fuel / 4)%nat) in *. assert (EM : S fuel = (2 * (2 * k + 1))%nat) by lia. assert (EH : (S fuel / 2 = 2 * k + 1)%nat) by lia. rewrite EH.
      destruct fuel as [|fuel]; [lia|]. destruct (ODD fuel (2 * k + 1)%nat ltac:(lia)) as [Eo G]; [rewrite Nat.add_comm, Nat.mul_comm, Nat.mod_add; [reflexivity|lia]|]. rewrite Eo. cbn [bind].
      eexists. split; [reflexivity|]. rewrite EM. rewrite (even_table (2 * k + 1) k) by lia. apply good_magic. apply even_good; [lia|reflexivity|exact G].
Qed.
Lemma magic_small n : n < 3 -> magic n = Err ValueError.
Proof. intros H. unfold magic. destruct (Z.ltb_spec n 3); [reflexivity|lia]. Qed.
