(* Exactness of the extrapolation table of romberg *)
From Coq Require Import Reals Lra Lia.
From Coquelicot Require Import RInt Hierarchy Derive Continuity RInt_analysis AutoDerive Rcomplements.
From Verif Require Import Base PolyModel PolySpec OrthoModel OrthoProofs QuadModel QuadSpec QuadProofs QuadProofs2 QuadProofs3 QuadProofs4 QuadProofs6 ChebProofs3 AdaptModel AdaptSpec AdaptProofs AdaptProofs4.
Local Open Scope R_scope.

Definition pA (k : nat) (x : R) : R := (x + 1) ^ k + x ^ k.
Definition pD (k : nat) (x : R) : R := (x + 1) ^ k - x ^ k.
Inductive W : nat -> (R -> R) -> Prop :=
| W_zero m : W m (fun _ => 0)
| W_A m k c g : W m g -> (k + 2 <= m)%nat -> Nat.even (m - k) = true -> W m (fun x => c * pA k x + g x)
| W_ext m g h : W m g -> (forall x, g x = h x) -> W m h.
Lemma W_add m g h : W m g -> W m h -> W m (fun x => g x + h x).
Proof.
  intros Hg Hh. induction Hg as [m|m k c g Hg IH L E|m g g' Hg IH E].
  - apply (W_ext _ h); [exact Hh|]. intros; ring.
  - apply (W_ext _ (fun x => c * pA k x + (g x + h x))); [apply W_A; auto|]. intros; ring.
  - apply (W_ext _ (fun x => g x + h x)); [auto|]. intros. rewrite E. reflexivity.
Qed.
Lemma W_scal m c g : W m g -> W m (fun x => c * g x).
Proof.
  intros Hg. induction Hg as [m|m k d g Hg IH L E|m g g' Hg IH E].
  - apply (W_ext _ (fun _ => 0)); [constructor|]. intros; ring.
  - apply (W_ext _ (fun x => c * d * pA k x + c * g x)); [apply W_A; auto|]. intros; ring.
  - apply (W_ext _ (fun x => c * g x)); [auto|]. intros. rewrite E. reflexivity.
Qed.
Lemma even_trans m k j : (k <= m)%nat -> (j <= k)%nat -> Nat.even (m - k) = true -> Nat.even (k - j) = true -> Nat.even (m - j) = true.
Proof. intros. replace (m - j)%nat with ((m - k) + (k - j))%nat by lia. rewrite Nat.even_add, H1, H2. reflexivity. Qed.
Lemma W_mono m n g : W m g -> (m <= n)%nat -> Nat.even (n - m) = true -> W n g.
Proof.
  intros Hg Hn He. induction Hg as [m|m k d g Hg IH L E|m g g' Hg IH E].
  - constructor.
  - apply W_A; auto; [lia|]. apply even_trans with m; auto; lia.
  - eapply W_ext; eauto.
Qed.
Lemma s_A k x : (2 * x + 1) / 2 * pA k x = pA (S k) x - pD k x / 2.
Proof. unfold pA, pD. cbn [pow]. field. Qed.
Lemma D_S k x : pD (S k) x = pA k x / 2 + (2 * x + 1) / 2 * pD k x.
Proof. unfold pA, pD. cbn [pow]. field. Qed.
Lemma W_s m g : (forall k, (k < m)%nat -> W (S k) (pD k)) -> W m g -> W (S m) (fun x => (2 * x + 1) / 2 * g x).
Proof.
  intros HD Hg. induction Hg as [m|m k d g Hg IH L E|m g g' Hg IH E].
  - apply (W_ext _ (fun _ => 0)); [constructor|]. intros; ring.
  - apply (W_ext _ (fun x => d * pA (S k) x + (- d / 2 * pD k x + (2 * x + 1) / 2 * g x))).
    + apply W_A; [|lia|exact E]. apply W_add; [|auto]. apply W_scal. apply (W_mono (S k)); [apply HD; lia|lia|exact E].
    + intros x. rewrite Rmult_plus_distr_l. replace ((2 * x + 1) / 2 * (d * pA k x)) with (d * ((2 * x + 1) / 2 * pA k x)) by ring. rewrite s_A. field.
  - apply (W_ext _ (fun x => (2 * x + 1) / 2 * g x)); [auto|]. intros. rewrite E. reflexivity.
Qed.
Lemma D_lead m : exists g, W m g /\ forall x, pD (S m) x = INR (S m) / 2 * pA m x + g x.
Proof.
  induction m as [m IH] using lt_wf_ind. destruct m as [|m].
  - exists (fun _ => 0). split; [constructor|]. intros x. unfold pD, pA. cbn. field.
  - assert (HD : forall k, (k <= m)%nat -> W (S k) (pD k)).
    { intros [|k] Hk.
      - apply (W_ext _ (fun _ => 0)); [constructor|]. intros x. unfold pD. cbn. ring.
      - destruct (IH k ltac:(lia)) as (g & Hg & E).
        apply (W_ext _ (fun x => INR (S k) / 2 * pA k x + g x)); [|intros; symmetry; apply E].
        apply W_A; [|lia|replace (S (S k) - k)%nat with 2%nat by lia; reflexivity].
        apply (W_mono k); [exact Hg|lia|replace (S (S k) - k)%nat with 2%nat by lia; reflexivity]. }
    destruct (IH m ltac:(lia)) as (g & Hg & E).
    exists (fun x => - (INR (S m) / 4) * pD m x + (2 * x + 1) / 2 * g x). split.
    + apply W_add; [apply W_scal, HD; lia|]. apply W_s; [|exact Hg]. intros k Hk. apply HD. lia.
    + intros x. rewrite D_S, E, Rmult_plus_distr_l.
      replace ((2 * x + 1) / 2 * (INR (S m) / 2 * pA m x)) with (INR (S m) / 2 * ((2 * x + 1) / 2 * pA m x)) by ring.
      rewrite s_A. rewrite (S_INR (S m)). field.
Qed.
(* sums *)
Inductive V : nat -> (nat -> R) -> Prop :=
| V_zero m : V m (fun _ => 0)
| V_pow m k c g : V m g -> (1 <= k)%nat -> (k + 2 <= m)%nat -> Nat.even (m - k) = true -> V m (fun n => c * INR n ^ k + g n)
| V_ext m g h : V m g -> (forall n, g n = h n) -> V m h.
Lemma V_add m g h : V m g -> V m h -> V m (fun x => g x + h x).
Proof.
  intros Hg Hh. induction Hg as [m|m k c g Hg IH P L E|m g g' Hg IH E].
  - apply (V_ext _ h); [exact Hh|]. intros; ring.
  - apply (V_ext _ (fun n => c * INR n ^ k + (g n + h n))); [apply V_pow; auto|]. intros; ring.
  - apply (V_ext _ (fun x => g x + h x)); [auto|]. intros. rewrite E. reflexivity.
Qed.
Lemma V_scal m c g : V m g -> V m (fun x => c * g x).
Proof.
  intros Hg. induction Hg as [m|m k d g Hg IH P L E|m g g' Hg IH E].
  - apply (V_ext _ (fun _ => 0)); [constructor|]. intros; ring.
  - apply (V_ext _ (fun n => c * d * INR n ^ k + c * g n)); [apply V_pow; auto|]. intros; ring.
  - apply (V_ext _ (fun x => c * g x)); [auto|]. intros. rewrite E. reflexivity.
Qed.
Lemma V_mono m n g : V m g -> (m <= n)%nat -> Nat.even (n - m) = true -> V n g.
Proof.
  intros Hg Hn He. induction Hg as [m|m k d g Hg IH P L E|m g g' Hg IH E].
  - constructor.
  - apply V_pow; auto; [lia|]. apply even_trans with m; auto; lia.
  - eapply V_ext; eauto.
Qed.
Lemma sum_D k n : (0 < k)%nat -> vsum n (fun j => pD k (INR j)) = INR n ^ k.
Proof.
  intros Hk. induction n as [|n IH]; [cbn [vsum]; change (INR 0) with 0; rewrite pow_i by lia; reflexivity|].
  cbn [vsum]. rewrite IH. unfold pD. rewrite S_INR. ring.
Qed.
Lemma sum_A k : exists g, V (S k) g /\ forall n, vsum n (fun j => pA k (INR j)) = 2 / INR (S k) * INR n ^ S k + g n.
Proof.
  induction k as [k IH] using lt_wf_ind. destruct (D_lead k) as (g & Hg & E).
  assert (X : exists G, V (S k) G /\ forall n, vsum n (fun j => g (INR j)) = G n).
  { assert (Gen : forall m g, W m g -> (m <= k)%nat -> exists G, V (S m) G /\ forall n, vsum n (fun j => g (INR j)) = G n).
    2:{ apply Gen; auto. }
    clear E Hg g. intros m g Hg. induction Hg as [m|m j d g Hg IHg L E|m g g' Hg IHg E]; intros Hm.
    - exists (fun _ => 0). split; [constructor|]. intros n. apply vsum_0. intros; reflexivity.
    - destruct (IHg Hm) as (G & HG & EG). destruct (IH j ltac:(lia)) as (H & HH & EH).
      exists (fun n => d * (2 / INR (S j)) * INR n ^ S j + (d * H n + G n)). split.
      + apply V_pow; [|lia|lia|exact E]. apply V_add; [|exact HG]. apply V_scal. apply (V_mono (S j)); [exact HH|lia|exact E].
      + intros n. rewrite vsum_add, vsum_scal, EH, EG. ring.
    - destruct (IHg Hm) as (G & HG & EG). exists G. split; [exact HG|]. intros n. rewrite <- EG. apply vsum_ext. intros; symmetry; apply E. }
  destruct X as (G & HG & EG). assert (P : INR (S k) <> 0) by (apply not_0_INR; lia).
  exists (fun n => - (2 / INR (S k)) * G n). split; [apply V_scal; exact HG|].
  intros n. pose proof (sum_D (S k) n ltac:(lia)) as S1.
  rewrite (vsum_ext n _ (fun j => INR (S k) / 2 * pA k (INR j) + g (INR j))) in S1 by (intros; apply E).
  rewrite vsum_add, vsum_scal, EG in S1. rewrite <- S1. field. exact P.
Qed.

(* even powers of 1/N *)
Inductive Y : nat -> (nat -> R) -> Prop :=
| Y_zero M : Y M (fun _ => 0)
| Y_pow M k c g : Y M g -> (1 <= k <= M)%nat -> Y M (fun n => c * (/ INR n ^ 2) ^ k + g n)
| Y_ext M g h : Y M g -> (forall n, (0 < n)%nat -> g n = h n) -> Y M h.
Lemma Y_add m g h : Y m g -> Y m h -> Y m (fun x => g x + h x).
Proof.
  intros Hg Hh. induction Hg as [m|m k c g Hg IH P|m g g' Hg IH E].
  - apply (Y_ext _ h); [exact Hh|]. intros; ring.
  - apply (Y_ext _ (fun n => c * (/ INR n ^ 2) ^ k + (g n + h n))); [apply Y_pow; auto|]. intros; ring.
  - apply (Y_ext _ (fun x => g x + h x)); [auto|]. intros. rewrite E by assumption. reflexivity.
Qed.
Lemma Y_scal m c g : Y m g -> Y m (fun x => c * g x).
Proof.
  intros Hg. induction Hg as [m|m k d g Hg IH P|m g g' Hg IH E].
  - apply (Y_ext _ (fun _ => 0)); [constructor|]. intros; ring.
  - apply (Y_ext _ (fun n => c * d * (/ INR n ^ 2) ^ k + c * g n)); [apply Y_pow; auto|]. intros; ring.
  - apply (Y_ext _ (fun x => c * g x)); [auto|]. intros. rewrite E by assumption. reflexivity.
Qed.
Lemma Y_mono m n g : Y m g -> (m <= n)%nat -> Y n g.
Proof. intros Hg L. induction Hg; [constructor|apply Y_pow; auto; lia|eapply Y_ext; eauto]. Qed.
Lemma V_Y m g : V m g -> Y ((m - 1) / 2) (fun n => g n / INR n ^ m).
Proof.
  intros Hg. induction Hg as [m|m k d g Hg IH P L E|m g g' Hg IH E].
  - apply (Y_ext _ (fun _ => 0)); [constructor|]. intros n Hn. unfold Rdiv. ring.
  - apply Nat.even_spec in E as [i Hi]. apply (Y_ext _ (fun n => d * (/ INR n ^ 2) ^ i + g n / INR n ^ m)).
    + apply Y_pow; [exact IH|]. split; [lia|]. apply Nat.div_le_lower_bound; lia.
    + intros n Hn. assert (N : INR n <> 0) by (apply not_0_INR; lia). replace m with (k + 2 * i)%nat by lia.
      rewrite pow_add, pow_mult. rewrite pow_inv. field. split; apply pow_nonzero; auto. apply pow_nonzero; auto.
  - apply (Y_ext _ (fun n => g n / INR n ^ m)); [exact IH|]. intros; rewrite E; reflexivity.
Qed.
Definition trap01 (f : R -> R) (n : nat) : R := vsum n (fun j => (f (INR j / INR n) + f (INR (S j) / INR n)) / 2) / INR n.
Lemma trap_mono d : exists g, Y (d / 2) g /\ forall n, (0 < n)%nat -> trap01 (fun t => t ^ d) n = / INR (S d) + g n.
Proof.
  destruct (sum_A d) as (g & Hg & E). exists (fun n => / 2 * (g n / INR n ^ S d)). split.
  - apply Y_scal. replace d with (S d - 1)%nat at 1 by lia. apply V_Y. exact Hg.
  - intros n Hn. assert (N : INR n <> 0) by (apply not_0_INR; lia). assert (P : INR (S d) <> 0) by (apply not_0_INR; lia).
    assert (ND : INR n ^ d <> 0) by (apply pow_nonzero; exact N). unfold trap01.
    rewrite (vsum_ext n _ (fun j => / (2 * INR n ^ d) * pA d (INR j))).
    + rewrite vsum_scal, E. cbn [pow]. field. repeat split; assumption.
    + intros j _. unfold pA. rewrite <- S_INR. unfold Rdiv at 2 3. rewrite !Rpow_mult_distr, pow_inv. field. exact ND.
Qed.
Lemma int_mono d : integral (fun t => t ^ d) 0 1 (/ INR (S d)).
Proof.
  assert (P : INR (S d) <> 0) by (apply not_0_INR; lia).
  set (F := fun t : R => t ^ S d / INR (S d)).
  eapply is_int_val; [apply (is_RInt_derive (V := R_CompleteNormedModule) F (fun t => t ^ d))|].
  - intros t _. unfold F. auto_derive; [exact Logic.I|].
    change (match d with O => 1 | S _ => INR d + 1 end) with (INR (S d)). set (c := INR (S d)) in *. clearbody c. field. exact P.
  - intros t _. apply cont_of. apply derivable_continuous. apply derivable_pow.
  - change (F 1 - F 0 = / INR (S d)). unfold F. rewrite pow1, pow_i by lia. field. exact P.
Qed.
Lemma trap_poly M p : (List.length p <= 2 * M + 2)%nat -> exists I g, Y M g /\ (forall n, (0 < n)%nat -> trap01 (peval p) n = I + g n) /\ integral (peval p) 0 1 I.
Proof.
  induction p as [|c p IH]; intros L.
  - exists 0, (fun _ => 0). split; [constructor|]. split.
    + intros n Hn. unfold trap01. rewrite vsum_0 by (intros; cbn; field). unfold Rdiv. ring.
    + eapply is_int_val; [apply is_int_const|]. ring.
  - cbn [List.length] in L. destruct (IH ltac:(lia)) as (I & g & Hg & E & HI). destruct (trap_mono (List.length p)) as (h & Hh & Eh).
    exists (c * / INR (S (List.length p)) + I), (fun n => c * h n + g n). split; [|split].
    + apply Y_add; [|exact Hg]. apply Y_scal. apply (Y_mono (List.length p / 2)); [exact Hh|]. apply Nat.lt_succ_r, Nat.div_lt_upper_bound; lia.
    + intros n Hn. assert (N : INR n <> 0) by (apply not_0_INR; lia).
      transitivity (c * trap01 (fun t => t ^ List.length p) n + trap01 (peval p) n); [|rewrite E, Eh by exact Hn; ring].
      unfold trap01. cbn [peval].
      rewrite (vsum_ext n _ (fun j => c * (((INR j / INR n) ^ List.length p + (INR (S j) / INR n) ^ List.length p) / 2) + (peval p (INR j / INR n) + peval p (INR (S j) / INR n)) / 2)) by (intros; field; exact N).
      rewrite vsum_add, vsum_scal. field. exact N.
    + eapply is_int_ext; [|eapply is_int_val; [apply (is_int_lin _ _ _ _ _ _ c 1 (int_mono (List.length p)) HI)|]]; [intros; cbn [peval]; ring|ring].
Qed.

(* the extrapolation *)
Fixpoint entry (u : nat -> R) (k i : nat) : R :=
  match k with O => u i | S k' => entry u k' i + (entry u k' i - entry u k' (i - 1)) / (4 ^ S k' - 1) end.
Lemma rom_entry_eq f a h k : forall i, rom_entry f a h k i = entry (rom_trap f a h) k i.
Proof. induction k as [|k IH]; intros i; cbn [rom_entry entry]; [reflexivity|]. rewrite !IH. reflexivity. Qed.
Lemma entry_ext u v k : (forall i, u i = v i) -> forall i, entry u k i = entry v k i.
Proof. intros E. induction k as [|k IH]; intros i; cbn [entry]; [apply E|]. rewrite !IH. reflexivity. Qed.
Lemma pow4 k : 4 ^ S k - 1 <> 0.
Proof. assert (1 <= 4 ^ k) by (apply pow_R1_Rle; lra). cbn [pow]. lra. Qed.
Lemma entry_lin c d u v k : forall i, entry (fun i => c * u i + d * v i) k i = c * entry u k i + d * entry v k i.
Proof. induction k as [|k IH]; intros i; cbn [entry]; [reflexivity|]. rewrite !IH. field. apply pow4. Qed.
Lemma entry_const c k : forall i, entry (fun _ => c) k i = c.
Proof. induction k as [|k IH]; intros i; cbn [entry]; [reflexivity|]. rewrite !IH. field. apply pow4. Qed.
Fixpoint factor (j k : nat) : R := match k with O => 1 | S k' => factor j k' * (1 + (1 - 4 ^ j) / (4 ^ S k' - 1)) end.
Lemma factor_0 j k : (1 <= j <= k)%nat -> factor j k = 0.
Proof.
  intros H. induction k as [|k IH]; [lia|]. cbn [factor]. destruct (Nat.eq_dec j (S k)) as [->|N].
  - replace (1 + (1 - 4 ^ S k) / (4 ^ S k - 1)) with 0 by (field; apply pow4). ring.
  - rewrite IH by lia. ring.
Qed.
Lemma entry_geo j k : forall i, (k <= i)%nat -> entry (fun i => (/ 4 ^ j) ^ i) k i = factor j k * (/ 4 ^ j) ^ i.
Proof.
  induction k as [|k IH]; intros i Hi; cbn [entry factor]; [ring|]. rewrite !IH by lia.
  destruct i as [|i]; [lia|]. replace (S i - 1)%nat with i by lia. assert (N : 4 ^ j <> 0) by (apply pow_nonzero; lra).
  cbn [pow]. rewrite pow_inv. pose proof (pow4 k) as N4. cbn [pow] in N4. field. repeat split; auto. apply pow_nonzero. exact N.
Qed.
Lemma entry_Y M g k i : Y M g -> (M <= k)%nat -> (k <= i)%nat -> entry (fun i => g (2 ^ i)%nat) k i = 0.
Proof.
  intros Hg HM Hi. induction Hg as [M|M j c g Hg IH L|M g g' Hg IH E].
  - apply entry_const.
  - rewrite (entry_ext _ (fun i => c * (/ 4 ^ j) ^ i + 1 * g (2 ^ i)%nat)).
    + rewrite (entry_lin c 1 (fun i => (/ 4 ^ j) ^ i) (fun i => g (2 ^ i)%nat)). rewrite entry_geo, factor_0, IH by lia. ring.
    + intros n. rewrite pow2_INR, Rmult_1_l. f_equal. f_equal. rewrite !pow_inv. f_equal.
      replace 4 with (2 ^ 2) by ring. rewrite <- !pow_mult. f_equal. lia.
  - rewrite (entry_ext _ (fun i => g (2 ^ i)%nat)); [apply IH; exact HM|]. intros n. symmetry. apply E. apply pow2_pos.
Qed.
Lemma vsum_2 k f : vsum (2 * k) f = vsum k (fun i => f (2 * i)%nat + f (2 * i + 1)%nat).
Proof. induction k as [|k IH]; [reflexivity|]. replace (2 * S k)%nat with (S (S (2 * k))) by lia. cbn [vsum]. rewrite IH. replace (2 * k + 1)%nat with (S (2 * k)) by lia. ring. Qed.
Lemma sumR_seq f n : sumR (map f (seq 0 n)) = vsum n f.
Proof.
  assert (G : forall s, sumR (map f (seq s n)) = vsum n (fun j => f (s + j)%nat)); [|rewrite G; apply vsum_ext; intros; reflexivity].
  induction n as [|n IH]; intros s; [reflexivity|]. rewrite vsum_first. cbn [seq map]. change (sumR (f s :: map f (seq (S s) n))) with (f s + sumR (map f (seq (S s) n))). rewrite IH. rewrite Nat.add_0_r. f_equal. apply vsum_ext. intros; f_equal; lia.
Qed.
Lemma trap_double f n : (0 < n)%nat -> trap01 f (2 * n) = 1/2 * trap01 f n + vsum n (fun j => f (INR (2 * j + 1) / INR (2 * n))) / INR (2 * n).
Proof.
  intros Hn. assert (N : INR n <> 0) by (apply not_0_INR; lia). unfold trap01. rewrite vsum_2.
  rewrite (vsum_ext n _ (fun j => (f (INR j / INR n) + f (INR (S j) / INR n)) / 2 + f (INR (2 * j + 1) / INR (2 * n)))).
  - rewrite vsum_add. rewrite (mult_INR 2 n). change (INR 2) with 2. field. exact N.
  - intros j _. replace (S (2 * j + 1)) with (2 * S j)%nat by lia. replace (S (2 * j)) with (2 * j + 1)%nat by lia.
    assert (X : forall m, INR (2 * m) / INR (2 * n) = INR m / INR n) by (intros m; rewrite !mult_INR; change (INR 2) with 2; field; exact N).
    rewrite !X. field.
Qed.
Lemma rom_trap_eq f a h i : rom_trap f a h i = h * trap01 (fun t => f (a + h * t)) (2 ^ i).
Proof.
  induction i as [|i IH].
  - cbn [rom_trap Nat.pow]. unfold trap01. cbn [vsum]. change (INR 0) with 0. change (INR 1) with 1.
    replace (a + h * (0 / 1)) with a by field. replace (a + h * (1 / 1)) with (a + h) by field. field.
  - cbn [rom_trap]. rewrite IH. change (2 ^ S i)%nat with (2 * 2 ^ i)%nat. rewrite trap_double by apply pow2_pos. rewrite sumR_seq.
    assert (P : 2 ^ i <> 0) by (apply pow_nonzero; lra).
    rewrite (vsum_ext (2 ^ i) (fun j => f (a + h * (INR (2 * j + 1) / INR (2 * 2 ^ i)))) (fun j => f (a + INR (2 * j + 1) * (h / 2 ^ S i)))).
    + rewrite (mult_INR 2), pow2_INR. change (INR 2) with 2. cbn [pow]. field. exact P.
    + intros j _. f_equal. rewrite (mult_INR 2 (2 ^ i)), pow2_INR. change (INR 2) with 2. cbn [pow]. field. exact P.
Qed.
Lemma rom_entry_exact p a h k i : (List.length p <= 2 * k + 2)%nat -> (k <= i)%nat -> integral (peval p) a (a + h) (rom_entry (peval p) a h k i).
Proof.
  intros L Hi. destruct (compose_uv p h a) as (q & Lq & Hq).
  destruct (trap_poly k q ltac:(lia)) as (I & g & Hg & E & HI).
  assert (EQ : rom_entry (peval p) a h k i = h * I).
  { rewrite rom_entry_eq. rewrite (entry_ext _ (fun i => h * I + h * g (2 ^ i)%nat)).
    - rewrite (entry_lin h h (fun _ => I) (fun i => g (2 ^ i)%nat)). rewrite entry_const, (entry_Y k g k i) by auto. ring.
    - intros j. rewrite rom_trap_eq. rewrite <- Rmult_plus_distr_l. f_equal. rewrite <- E by apply pow2_pos. unfold trap01. f_equal. apply vsum_ext. intros m _.
      rewrite !Hq. rewrite !(Rplus_comm a). reflexivity. }
  rewrite EQ. clear EQ.
  destruct (Req_dec h 0) as [->|Hh].
  { replace (a + 0) with a by ring. replace (0 * I) with 0 by ring. apply (is_RInt_point (V := R_NormedModule)). }
  assert (G : is_int (fun y => scal (/ h) (peval q (/ h * y + - a / h))) a (a + h) I).
  { apply (is_RInt_comp_lin (V := R_NormedModule)). replace (/ h * a + - a / h) with 0 by (field; exact Hh). replace (/ h * (a + h) + - a / h) with 1 by (field; exact Hh). exact HI. }
  eapply is_int_ext; [|apply (is_RInt_scal (V := R_NormedModule) _ a (a + h) h I G)].
  intros y. unfold scal; cbn; unfold mult; cbn. rewrite Hq. rewrite <- Rmult_assoc, Rinv_r, Rmult_1_l by exact Hh. f_equal. field. exact Hh.
Qed.
Lemma romberg_spec dea3 lg p a b releps abseps k re : (List.length p <= 2 * k + 2)%nat ->
  exists Q : nat -> R, (forall i, (k <= i)%nat -> integral (peval p) a b (Q i)) /\ (romberg dea3 lg (peval p) a b releps abseps = Ok re ->
      exists i, (2 <= i)%nat /\ re = dea3 (Q (i - 2)%nat) (Q (i - 1)%nat) (Q i) /\ snd re <= Rmax abseps (releps * Rabs (fst re))).
Proof.
  intros L. set (h := b - a). exists (fun i => rom_entry (peval p) a h i i). split.
  - intros i Hi. replace b with (a + h) by (unfold h; ring). apply rom_entry_exact; [|lia]. lia.
  - unfold romberg. destruct (romberg_table_limit lg) as [lim|]; cbn [bind]; [|discriminate]. cbv zeta. fold h.
    set (Q := fun i => rom_entry (peval p) a h i i).
    assert (G : forall n i q1 q2 q4, (1 <= i)%nat -> ((2 <= i)%nat -> q2 = Q (i - 2)%nat) -> q4 = Q (i - 1)%nat ->
      rom_loop dea3 (peval p) a h releps abseps n i q1 q2 q4 = Ok re ->
      exists i, (2 <= i)%nat /\ re = dea3 (Q (i - 2)%nat) (Q (i - 1)%nat) (Q i) /\ snd re <= Rmax abseps (releps * Rabs (fst re))).
    { induction n as [|n IH]; intros i q1 q2 q4 Hi H2 H4 H; cbn [rom_loop] in H; [discriminate|]. cbv zeta in H.
      destruct (2 <=? i)%nat eqn:E.
      - apply Nat.leb_le in E. destruct (Rle_dec _ _) as [Le|_].
        + injection H as H. exists i. split; [exact E|]. rewrite <- H2, <- H4 by exact E. split; [symmetry; exact H|]. rewrite <- H. exact Le.
        + apply (IH (S i) q2 q4 (Q i)); [lia|intros _; replace (S i - 2)%nat with (i - 1)%nat by lia; exact H4|replace (S i - 1)%nat with i by lia; reflexivity|exact H].
      - apply (IH (S i) q2 q4 (Q i)); [lia|intros _; replace (S i - 2)%nat with (i - 1)%nat by lia; exact H4|replace (S i - 1)%nat with i by lia; reflexivity|exact H]. }
    apply G; [lia|lia|]. reflexivity.
Qed.
