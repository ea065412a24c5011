(* The covariance of the autoregressive process. *)
From Coq Require Import Reals List Lra Lia.
From Coquelicot Require Import Coquelicot.
From Verif Require Import PolyModel KdeModel SpectModel ArModel ArSpec ArProofs.
Import ListNotations.
Local Open Scope R_scope.

Lemma sum_ext n f g : (forall m, (m < n)%nat -> f m = g m) -> sum_to n f = sum_to n g.
Proof. induction n as [|n IH]; intros H; cbn [sum_to]; [reflexivity|]. rewrite IH by (intros m Hm; apply H; lia). rewrite H by lia. reflexivity. Qed.
Lemma sum_lin n a b f g : sum_to n (fun m => a * f m + b * g m) = a * sum_to n f + b * sum_to n g.
Proof. induction n as [|n IH]; cbn [sum_to]; [ring|]. rewrite IH. ring. Qed.
Lemma sum_unit n p f : sum_to n (fun m => unit_draw m p * f m) = if Nat.ltb p n then f p else 0.
Proof.
  induction n as [|n IH]; cbn [sum_to]; [reflexivity|]. rewrite IH. unfold unit_draw. destruct (Nat.eqb_spec n p) as [->|N].
  - rewrite Nat.ltb_irrefl. destruct (Nat.ltb_spec p (S p)); [ring|lia].
  - destruct (Nat.ltb_spec p n), (Nat.ltb_spec p (S n)); try lia; ring.
Qed.
Lemma sum_nonneg n f : (forall m, (m < n)%nat -> 0 <= f m) -> 0 <= sum_to n f.
Proof. induction n as [|n IH]; intros H; cbn [sum_to]; [lra|]. pose proof (IH (fun m Hm => H m ltac:(lia))). pose proof (H n ltac:(lia)). lra. Qed.
Lemma sum_part n k f : (k <= n)%nat -> (forall m, 0 <= f m) -> sum_to k f <= sum_to n f.
Proof. intros L P. induction n as [|n IH]; [replace k with 0%nat by lia; cbn; lra|]. destruct (Nat.eq_dec k (S n)) as [->|]; [lra|]. cbn [sum_to]. pose proof (IH ltac:(lia)). pose proof (P n). lra. Qed.
Lemma sum_split n k f : sum_to (k + n) f = sum_to k f + sum_to n (fun m => f (k + m)%nat).
Proof. induction n as [|n IH]; [rewrite Nat.add_0_r; cbn; ring|]. rewrite Nat.add_succ_r. cbn [sum_to]. rewrite IH. ring. Qed.
Lemma sum_rev n f : sum_to n f = sum_to n (fun m => f (n - 1 - m)%nat).
Proof.
  induction n as [|n IH]; [reflexivity|]. cbn [sum_to]. rewrite IH. transitivity (sum_to (1 + n) (fun m => f (S n - 1 - m)%nat)); [|reflexivity]. rewrite sum_split. cbn [sum_to]. rewrite (sum_ext n (fun m => f (S n - 1 - (1 + m))%nat) (fun m => f (n - 1 - m)%nat)) by (intros m Hm; f_equal; lia). replace (S n - 1 - 0)%nat with n by lia. ring.
Qed.
(* the process with the start coefficient c *)
Fixpoint pair_of (a1 a2 r1 s c : R) (ns : nat) (d : nat -> R) (k : nat) : R * R :=
  match k with
  | O => (d ns, r1 * d ns + c * d (ns + 1)%nat)
  | S k => let p := pair_of a1 a2 r1 s c ns d k in (snd p, d (S (S k)) * s - a1 * snd p - a2 * fst p)
  end.
Definition proc a1 a2 r1 s c ns d k : R := fst (pair_of a1 a2 r1 s c ns d k).
Lemma proc_0 a1 a2 r1 s c ns d : proc a1 a2 r1 s c ns d 0 = d ns. Proof. reflexivity. Qed.
Lemma proc_1 a1 a2 r1 s c ns d : proc a1 a2 r1 s c ns d 1 = r1 * d ns + c * d (ns + 1)%nat. Proof. reflexivity. Qed.
Lemma proc_SS a1 a2 r1 s c ns d k : proc a1 a2 r1 s c ns d (S (S k)) = d (S (S k)) * s - a1 * proc a1 a2 r1 s c ns d (S k) - a2 * proc a1 a2 r1 s c ns d k. Proof. reflexivity. Qed.
Lemma ind2 (P : nat -> Prop) : P 0%nat -> P 1%nat -> (forall k, P k -> P (S k) -> P (S (S k))) -> forall k, P k.
Proof. intros A B C k. assert (Q : P k /\ P (S k)) by (induction k as [|k [H1 H2]]; [split; assumption|split; [exact H2|apply C; assumption]]). apply Q. Qed.
Lemma filter_nth a1 a2 ns d s r1 c : forall n k z0 z1, (forall j, (k <= j < k + n)%nat -> z0 = z0) -> (2 <= k)%nat -> z0 = - a1 * proc a1 a2 r1 s c ns d (k - 1) - a2 * proc a1 a2 r1 s c ns d (k - 2) -> z1 = - a2 * proc a1 a2 r1 s c ns d (k - 1) ->
  forall i, (i < n)%nat -> nth i (lfilter_ar a1 a2 z0 z1 (map (fun j => if Nat.ltb j 2 then 0 else d j * s) (seq k n))) 0 = proc a1 a2 r1 s c ns d (k + i).
Proof.
  induction n as [|n IH]; intros k z0 z1 _ K E0 E1 i Hi; [lia|]. cbn [seq map lfilter_ar]. destruct (Nat.ltb_spec k 2); [lia|]. assert (EK : d k * s + z0 = proc a1 a2 r1 s c ns d k). { rewrite E0. replace k with (S (S (k - 2))) at 1 4 by lia. rewrite proc_SS. replace (S (k - 2)) with (k - 1)%nat by lia. ring. }
  rewrite EK. destruct i as [|i]; cbn [nth]; [f_equal; lia|]. rewrite (IH (S k)); [f_equal; lia|intros; reflexivity|lia| | |lia].
  - rewrite E1. replace (S k - 1)%nat with k by lia. replace (S k - 2)%nat with (k - 1)%nat by lia. ring.
  - replace (S k - 1)%nat with k by lia. reflexivity.
Qed.
Lemma latent_length alpha ns d : List.length (latent alpha ns d) = ns.
Proof. unfold latent. assert (Q : forall a1 a2 x z0 z1, List.length (lfilter_ar a1 a2 z0 z1 x) = List.length x) by (intros a1 a2 x; induction x as [|v x IH]; intros z0 z1; cbn [lfilter_ar List.length]; [reflexivity|rewrite IH; reflexivity]). rewrite Q, map_length, seq_length. reflexivity. Qed.
Lemma latent_proc alpha ns d i : (i < ns)%nat -> nth i (latent alpha ns d) 0 = proc (coef1 alpha) (coef2 alpha) (cor1 alpha) (sqrt (innovation alpha)) (sqrt (1 - cor2 alpha ^ 2)) ns d i.
Proof.
  intros Hi. unfold latent. cbn [lfilter_ma nth]. set (a1 := coef1 alpha). set (a2 := coef2 alpha). set (r1 := cor1 alpha). set (s := sqrt (innovation alpha)). set (c := sqrt (1 - cor2 alpha ^ 2)).
  destruct ns as [|ns]; [lia|]. cbn [seq map lfilter_ar]. change (Nat.ltb 0 2) with true. cbn iota. destruct i as [|i]; cbn [nth]; [rewrite proc_0; ring|]. destruct ns as [|ns]; [lia|]. cbn [seq map lfilter_ar]. change (Nat.ltb 1 2) with true. cbn iota. destruct i as [|i]; cbn [nth]; [rewrite proc_1; ring|].
  rewrite (filter_nth a1 a2 (S (S ns)) d s r1 c ns 2); [reflexivity|intros; reflexivity|lia| | |lia]; cbn [Nat.sub]; rewrite ?proc_0, ?proc_1; ring.
Qed.
Lemma proc_linear a1 a2 r1 s c ns d : forall k, (k < ns)%nat -> proc a1 a2 r1 s c ns d k = sum_to (ns + 2) (fun m => d m * proc a1 a2 r1 s c ns (unit_draw m) k).
Proof.
  assert (U : forall p, (p < ns + 2)%nat -> d p = sum_to (ns + 2) (fun m => d m * unit_draw m p)). { intros p Hp. rewrite (sum_ext _ _ (fun m => unit_draw m p * d m)) by (intros; ring). rewrite sum_unit. destruct (Nat.ltb_spec p (ns + 2)); [reflexivity|lia]. }
  apply (ind2 (fun k => (k < ns)%nat -> proc a1 a2 r1 s c ns d k = sum_to (ns + 2) (fun m => d m * proc a1 a2 r1 s c ns (unit_draw m) k))).
  - intros _. rewrite proc_0. apply U. lia.
  - intros _. rewrite proc_1. rewrite (sum_ext _ _ (fun m => r1 * (d m * unit_draw m ns) + c * (d m * unit_draw m (ns + 1)%nat))) by (intros; rewrite proc_1; ring). rewrite sum_lin, <- !U by lia. reflexivity.
  - intros k IH1 IH2 Hk. rewrite proc_SS, IH1, IH2 by lia. rewrite (sum_ext _ (fun m => d m * proc a1 a2 r1 s c ns (unit_draw m) (S (S k))) (fun m => 1 * (s * (d m * unit_draw m (S (S k))) + - a1 * (d m * proc a1 a2 r1 s c ns (unit_draw m) (S k))) + - a2 * (d m * proc a1 a2 r1 s c ns (unit_draw m) k))) by (intros; rewrite proc_SS; ring).
    rewrite sum_lin, sum_lin, <- U by lia. ring.
Qed.
Lemma latent_linear alpha ns : linear_in (ns + 2) (latent alpha ns).
Proof.
  intros d i. destruct (le_lt_dec ns i) as [G|G].
  - rewrite nth_overflow by (rewrite latent_length; exact G). rewrite (sum_ext _ _ (fun m => 0 * 0 + 0 * 0)). 2: { intros m _. rewrite nth_overflow by (rewrite latent_length; exact G). ring. } rewrite sum_lin. ring.
  - rewrite latent_proc by exact G. rewrite proc_linear by exact G. apply sum_ext. intros m _. rewrite latent_proc by exact G. reflexivity.
Qed.
Lemma sol_SS a1 a2 : forall k y0 y1, solution a1 a2 y0 y1 (S (S k)) = - a1 * solution a1 a2 y0 y1 (S k) - a2 * solution a1 a2 y0 y1 k.
Proof. induction k as [|k IH]; intros y0 y1; [reflexivity|]. change (solution a1 a2 y0 y1 (S (S (S k)))) with (solution a1 a2 y1 (- a1 * y1 - a2 * y0) (S (S k))). rewrite IH. reflexivity. Qed.
(* dependence on the single draws *)
Lemma dep_late a1 a2 r1 s c ns m : (2 <= m < ns)%nat -> forall k, (k < m)%nat -> proc a1 a2 r1 s c ns (unit_draw m) k = 0.
Proof.
  intros M. apply (ind2 (fun k => (k < m)%nat -> proc a1 a2 r1 s c ns (unit_draw m) k = 0)).
  - intros _. rewrite proc_0. unfold unit_draw. destruct (Nat.eqb_spec m ns); [lia|reflexivity].
  - intros _. rewrite proc_1. unfold unit_draw. destruct (Nat.eqb_spec m ns); [lia|]. destruct (Nat.eqb_spec m (ns + 1)); [lia|]. ring.
  - intros k A B L. rewrite proc_SS, A, B by lia. unfold unit_draw. destruct (Nat.eqb_spec m (S (S k))); [lia|]. ring.
Qed.
Lemma dep_here a1 a2 r1 s c ns m : (2 <= m < ns)%nat -> proc a1 a2 r1 s c ns (unit_draw m) m = s.
Proof. intros M. replace m with (S (S (m - 2))) at 2 by lia. rewrite proc_SS, !dep_late by lia. unfold unit_draw. destruct (Nat.eqb_spec m (S (S (m - 2)))); [|lia]. ring. Qed.
Lemma dep_after a1 a2 r1 s c ns m : (2 <= m < ns)%nat -> forall j, (m + j < ns)%nat -> proc a1 a2 r1 s c ns (unit_draw m) (m + j) = s * solution a1 a2 0 1 (S j).
Proof.
  intros M. apply (ind2 (fun j => (m + j < ns)%nat -> proc a1 a2 r1 s c ns (unit_draw m) (m + j) = s * solution a1 a2 0 1 (S j))).
  - intros _. rewrite Nat.add_0_r, dep_here by exact M. cbn. ring.
  - intros L. replace (m + 1)%nat with (S (S (m - 1))) by lia. rewrite proc_SS. replace (S (m - 1)) with m by lia. rewrite dep_here by exact M. rewrite dep_late by lia. unfold unit_draw. destruct (Nat.eqb_spec m (S m)); [lia|]. cbn. ring.
  - intros j A B L. replace (m + S (S j))%nat with (S (S (m + j))) by lia. rewrite proc_SS. replace (S (m + j)) with (m + S j)%nat by lia. rewrite A, B by lia. unfold unit_draw. destruct (Nat.eqb_spec m (S (m + S j))); [lia|]. rewrite (sol_SS a1 a2 (S j)). ring.
Qed.
Lemma dep_start a1 a2 r1 s c ns : forall k, (k < ns)%nat -> proc a1 a2 r1 s c ns (unit_draw (ns + 1)) k = c * solution a1 a2 0 1 k.
Proof.
  apply (ind2 (fun k => (k < ns)%nat -> proc a1 a2 r1 s c ns (unit_draw (ns + 1)) k = c * solution a1 a2 0 1 k)).
  - intros _. rewrite proc_0. unfold unit_draw. destruct (Nat.eqb_spec (ns + 1) ns); [lia|]. cbn. ring.
  - intros _. rewrite proc_1. unfold unit_draw. destruct (Nat.eqb_spec (ns + 1) ns); [lia|]. rewrite Nat.eqb_refl. cbn. ring.
  - intros k A B L. rewrite proc_SS, A, B by lia. rewrite sol_SS. unfold unit_draw. destruct (Nat.eqb_spec (ns + 1) (S (S k))); [lia|]. ring.
Qed.
Definition cov a1 a2 r1 s c ns i j : R := sum_to (ns + 2) (fun m => proc a1 a2 r1 s c ns (unit_draw m) i * proc a1 a2 r1 s c ns (unit_draw m) j).
Lemma cov_sym a1 a2 r1 s c ns i j : cov a1 a2 r1 s c ns i j = cov a1 a2 r1 s c ns j i. Proof. apply sum_ext. intros. ring. Qed.
(* the covariance with the innovation of a later time *)
Lemma cov_step a1 a2 r1 s c ns i k : (S (S k) < ns)%nat -> (i < ns)%nat -> cov a1 a2 r1 s c ns i (S (S k)) = s * proc a1 a2 r1 s c ns (unit_draw (S (S k))) i - a1 * cov a1 a2 r1 s c ns i (S k) - a2 * cov a1 a2 r1 s c ns i k.
Proof.
  intros K I. unfold cov. rewrite (sum_ext _ _ (fun m => 1 * (s * (unit_draw m (S (S k)) * proc a1 a2 r1 s c ns (unit_draw m) i) + - a1 * (proc a1 a2 r1 s c ns (unit_draw m) i * proc a1 a2 r1 s c ns (unit_draw m) (S k))) + - a2 * (proc a1 a2 r1 s c ns (unit_draw m) i * proc a1 a2 r1 s c ns (unit_draw m) k))) by (intros; rewrite proc_SS; ring).
  rewrite sum_lin, sum_lin, sum_unit. destruct (Nat.ltb_spec (S (S k)) (ns + 2)); [|lia]. ring.
Qed.
Lemma cov_exact a1 a2 r1 r2 s c ns : r1 = - a1 - a2 * r1 -> r2 = - a1 * r1 - a2 -> s * s = 1 + a1 * r1 + a2 * r2 -> forall n i j, (n < ns)%nat -> (i <= n)%nat -> (j <= n)%nat ->
  cov a1 a2 r1 s c ns i j = solution a1 a2 1 r1 (distance i j) + (c * c - (1 - r1 ^ 2)) * (solution a1 a2 0 1 i * solution a1 a2 0 1 j).
Proof.
  intros Y1 Y2 YS. set (h := solution a1 a2 0 1). set (r := solution a1 a2 1 r1). set (q := c * c - (1 - r1 ^ 2)).
  assert (U : forall p, (p < ns + 2)%nat -> forall f, sum_to (ns + 2) (fun m => unit_draw m p * f m) = f p) by (intros p Hp f; rewrite sum_unit; destruct (Nat.ltb_spec p (ns + 2)); [reflexivity|lia]).
  assert (B00 : cov a1 a2 r1 s c ns 0 0 = 1). { unfold cov. rewrite (sum_ext _ _ (fun m => unit_draw m ns * unit_draw m ns)) by (intros; rewrite !proc_0; reflexivity). rewrite U by lia. unfold unit_draw. rewrite Nat.eqb_refl. reflexivity. }
  assert (B01 : cov a1 a2 r1 s c ns 0 1 = r1). { unfold cov. rewrite (sum_ext _ _ (fun m => unit_draw m ns * (r1 * unit_draw m ns + c * unit_draw m (ns + 1)%nat))) by (intros; rewrite proc_0, proc_1; reflexivity). rewrite (U ns ltac:(lia) (fun m => r1 * unit_draw m ns + c * unit_draw m (ns + 1)%nat)). unfold unit_draw. rewrite Nat.eqb_refl. destruct (Nat.eqb_spec ns (ns + 1)); [lia|]. ring. }
  assert (B11 : cov a1 a2 r1 s c ns 1 1 = r1 ^ 2 + c * c). { unfold cov. rewrite (sum_ext _ _ (fun m => r1 * (unit_draw m ns * (r1 * unit_draw m ns + c * unit_draw m (ns + 1)%nat)) + c * (unit_draw m (ns + 1)%nat * (r1 * unit_draw m ns + c * unit_draw m (ns + 1)%nat)))) by (intros; rewrite !proc_1; ring). rewrite sum_lin. rewrite (U ns ltac:(lia) (fun m => r1 * unit_draw m ns + c * unit_draw m (ns + 1)%nat)), (U (ns + 1)%nat ltac:(lia) (fun m => r1 * unit_draw m ns + c * unit_draw m (ns + 1)%nat)). unfold unit_draw. rewrite !Nat.eqb_refl. destruct (Nat.eqb_spec ns (ns + 1)); [lia|]. destruct (Nat.eqb_spec (ns + 1) ns); [lia|]. ring. }
  assert (H0 : h 0%nat = 0) by reflexivity. assert (H1 : h 1%nat = 1) by reflexivity. assert (R0 : r 0%nat = 1) by reflexivity. assert (R1 : r 1%nat = r1) by reflexivity.
  assert (HS : forall k, h (S (S k)) = - a1 * h (S k) - a2 * h k) by (intros; apply sol_SS). assert (RS : forall k, r (S (S k)) = - a1 * r (S k) - a2 * r k) by (intros; apply sol_SS).
  apply (ind2 (fun n => forall i j, (n < ns)%nat -> (i <= n)%nat -> (j <= n)%nat -> cov a1 a2 r1 s c ns i j = r (distance i j) + q * (h i * h j))).
  - intros i j N I J. assert (i = 0%nat) by lia. assert (j = 0%nat) by lia. subst i j. rewrite B00, H0. change (r (distance 0 0)) with 1. ring.
  - intros i j N I J. destruct i as [|[|i]]; destruct j as [|[|j]]; try lia.
    + rewrite B00, H0. change (r (distance 0 0)) with 1. ring.
    + rewrite B01, H0. change (distance 0 1) with 1%nat. rewrite R1. ring.
    + rewrite cov_sym, B01, H0. change (distance 1 0) with 1%nat. rewrite R1. ring.
    + rewrite B11, H1. change (distance 1 1) with 0%nat. rewrite R0. unfold q. ring.
  - intros n IH1 IH2 i j N I J.
    assert (ROW : forall i, (i <= S n)%nat -> cov a1 a2 r1 s c ns i (S (S n)) = r (distance i (S (S n))) + q * (h i * h (S (S n)))).
    { clear i j I J. intros i I. rewrite cov_step by lia. rewrite dep_late by lia. rewrite (IH2 i (S n)) by lia. destruct (Nat.eq_dec i (S n)) as [->|NE].
      - rewrite (IH2 (S n) n) by lia. replace (distance (S n) (S n)) with 0%nat by (unfold distance; lia). replace (distance (S n) n) with 1%nat by (unfold distance; lia). replace (distance (S n) (S (S n))) with 1%nat by (unfold distance; lia). rewrite R0, R1, HS. replace r1 with (- a1 - a2 * r1) at 2 by lra. ring.
      - rewrite (IH1 i n) by lia. replace (distance i (S (S n))) with (S (S (distance i n))) by (unfold distance; lia). replace (distance i (S n)) with (S (distance i n)) by (unfold distance; lia). rewrite RS, HS. ring. }
    destruct (Nat.eq_dec j (S (S n))) as [->|NJ].
    + destruct (Nat.eq_dec i (S (S n))) as [->|NI]; [|apply ROW; lia].
      rewrite cov_step by lia. rewrite dep_here by lia. rewrite (cov_sym _ _ _ _ _ _ (S (S n)) (S n)), (cov_sym _ _ _ _ _ _ (S (S n)) n). rewrite !ROW by lia. replace (distance (S n) (S (S n))) with 1%nat by (unfold distance; lia). replace (distance n (S (S n))) with 2%nat by (unfold distance; lia). replace (distance (S (S n)) (S (S n))) with 0%nat by (unfold distance; lia). rewrite R0, R1, (RS 0%nat), R1, R0. replace (- a1 * r1 - a2 * 1) with r2 by lra. rewrite YS. rewrite (HS n). ring.
    + destruct (Nat.eq_dec i (S (S n))) as [->|NI]; [|apply IH2; lia]. rewrite cov_sym. rewrite ROW by lia. unfold distance. rewrite (Nat.add_comm (S (S n) - j)). ring.
Qed.
Lemma cor2_bound alpha : 0 < alpha < 1 -> -1 < cor2 alpha < 1.
Proof.
  intros A. destruct (coef_facts alpha A) as [_ [_ [C2 [Y1 [Y2 [_ C1]]]]]]. assert (E1 : coef1 alpha = - cor1 alpha * (1 + coef2 alpha)) by lra. rewrite Y2, E1. replace (- (- cor1 alpha * (1 + coef2 alpha)) * cor1 alpha - coef2 alpha) with (cor1 alpha ^ 2 * (1 + coef2 alpha) - coef2 alpha) by ring. assert (0 <= cor1 alpha ^ 2 < 1) by nra. nra.
Qed.
Lemma latent_cov alpha ns i j : 0 < alpha < 1 -> (i < ns)%nat -> (j < ns)%nat ->
  covariance (ns + 2) (latent alpha ns) i j = solution (coef1 alpha) (coef2 alpha) 1 (cor1 alpha) (distance i j) + (cor1 alpha ^ 2 - cor2 alpha ^ 2) * (solution (coef1 alpha) (coef2 alpha) 0 1 i * solution (coef1 alpha) (coef2 alpha) 0 1 j).
Proof.
  intros A I J. destruct (yule_walker alpha A) as [Y1 [Y2 [Y3 P]]]. pose proof (cor2_bound alpha A) as CB. unfold covariance. rewrite (sum_ext _ _ (fun m => proc (coef1 alpha) (coef2 alpha) (cor1 alpha) (sqrt (innovation alpha)) (sqrt (1 - cor2 alpha ^ 2)) ns (unit_draw m) i * proc (coef1 alpha) (coef2 alpha) (cor1 alpha) (sqrt (innovation alpha)) (sqrt (1 - cor2 alpha ^ 2)) ns (unit_draw m) j)) by (intros; rewrite !latent_proc by assumption; reflexivity).
  etransitivity; [apply (cov_exact (coef1 alpha) (coef2 alpha) (cor1 alpha) (cor2 alpha) (sqrt (innovation alpha)) (sqrt (1 - cor2 alpha ^ 2)) ns Y1 Y2) with (n := Nat.max i j)|].
  - rewrite sqrt_sqrt by lra. reflexivity.
  - lia.
  - lia.
  - lia.
  - rewrite sqrt_sqrt by nra. ring.
Qed.
(* the response to the start is square summable *)
Lemma response_bound a1 a2 r1 r2 s : r1 = - a1 - a2 * r1 -> r2 = - a1 * r1 - a2 -> s * s = 1 + a1 * r1 + a2 * r2 -> r1 ^ 2 <= 1 -> 0 < s -> forall n, sum_to n (fun j => (solution a1 a2 0 1 (S j)) ^ 2) <= / (s * s).
Proof.
  intros Y1 Y2 YS B P n. set (ns := (n + 2)%nat). set (c := sqrt (1 - r1 ^ 2)). assert (CC : c * c = 1 - r1 ^ 2) by (unfold c; apply sqrt_sqrt; lra).
  pose proof (cov_exact a1 a2 r1 r2 s c ns Y1 Y2 YS (n + 1) (n + 1) (n + 1) ltac:(unfold ns; lia) ltac:(lia) ltac:(lia)) as Q. rewrite CC in Q. replace (distance (n + 1) (n + 1)) with 0%nat in Q by (unfold distance; lia). cbn [solution] in Q. replace (1 - r1 ^ 2 - (1 - r1 ^ 2)) with 0 in Q by ring. rewrite Rmult_0_l, Rplus_0_r in Q. unfold cov in Q.
  assert (L : sum_to ns (fun m => proc a1 a2 r1 s c ns (unit_draw m) (n + 1) * proc a1 a2 r1 s c ns (unit_draw m) (n + 1)) <= 1) by (rewrite <- Q; apply sum_part; [lia|]; intros m; pose proof (Rle_0_sqr (proc a1 a2 r1 s c ns (unit_draw m) (n + 1))) as W; exact W).
  unfold ns in L at 1. rewrite Nat.add_comm, sum_split in L. assert (N0 : 0 <= sum_to 2 (fun m => proc a1 a2 r1 s c ns (unit_draw m) (n + 1) * proc a1 a2 r1 s c ns (unit_draw m) (n + 1))) by (apply sum_nonneg; intros m _; pose proof (Rle_0_sqr (proc a1 a2 r1 s c ns (unit_draw m) (n + 1))) as W; exact W).
  rewrite (sum_ext n _ (fun m => (s * s) * (solution a1 a2 0 1 (S (n - 1 - m))) ^ 2 + 0 * 0)) in L. 2: { intros m Hm. replace (n + 1)%nat with ((2 + m) + (n - 1 - m))%nat by lia. rewrite dep_after by (unfold ns; lia). ring. }
  rewrite sum_lin in L. rewrite (sum_rev n). cbv beta. apply Rmult_le_reg_l with (s * s); [nra|]. rewrite Rinv_r by nra. set (T := sum_to n (fun m => solution a1 a2 0 1 (S (n - 1 - m)) ^ 2)) in *. set (Z0 := sum_to n (fun _ => 0)) in *. lra.
Qed.
Lemma bounded_sum_lim f M : (forall j, 0 <= f j) -> (forall n, sum_to n f <= M) -> is_lim_seq f 0.
Proof.
  intros P B. assert (EX : ex_finite_lim_seq (fun n => sum_to n f)) by (apply ex_finite_lim_seq_incr with M; [intros n; cbn [sum_to]; pose proof (P n); lra|exact B]). destruct EX as [l L]. pose proof (is_lim_seq_incr_1 (fun n => sum_to n f) l) as [L1 _]. specialize (L1 L). apply is_lim_seq_ext with (fun n => sum_to (S n) f - sum_to n f); [intros n; cbn [sum_to]; ring|]. replace (Finite 0) with (Finite (l - l)) by (f_equal; ring). apply (is_lim_seq_minus' _ _ l l L1 L).
Qed.
Lemma response_lim alpha : 0 < alpha < 1 -> is_lim_seq (solution (coef1 alpha) (coef2 alpha) 0 1) 0.
Proof.
  intros A. destruct (yule_walker alpha A) as [Y1 [Y2 [Y3 P]]]. destruct (coef_facts alpha A) as [_ [_ [_ [_ [_ [_ C1]]]]]]. assert (S0 : 0 < sqrt (innovation alpha)) by (apply sqrt_lt_R0, P).
  pose proof (response_bound (coef1 alpha) (coef2 alpha) (cor1 alpha) (cor2 alpha) (sqrt (innovation alpha)) Y1 Y2 ltac:(rewrite sqrt_sqrt by lra; reflexivity) ltac:(nra) S0) as B. set (h := solution (coef1 alpha) (coef2 alpha) 0 1) in *.
  assert (L : is_lim_seq (fun j => h (S j) ^ 2) 0) by (apply bounded_sum_lim with (/ (sqrt (innovation alpha) * sqrt (innovation alpha))); [intros j; rewrite <- Rsqr_pow2; apply Rle_0_sqr|exact B]).
  apply is_lim_seq_incr_1. apply is_lim_seq_abs_0. apply is_lim_seq_ext with (fun j => sqrt (h (S j) ^ 2)); [intros j; rewrite <- Rsqr_pow2; apply sqrt_Rsqr_abs|]. replace (Finite 0) with (Finite (sqrt 0)) by (rewrite sqrt_0; reflexivity). apply is_lim_seq_continuous; [|exact L]. apply continuity_pt_sqrt. lra.
Qed.
(* far from the start the process is stationary with unit variance *)
Lemma latent_lim alpha j : 0 < alpha < 1 -> is_lim_seq (fun i => covariance (i + j + 3) (latent alpha (i + j + 1)) i (i + j)) (solution (coef1 alpha) (coef2 alpha) 1 (cor1 alpha) j).
Proof.
  intros A. set (h := solution (coef1 alpha) (coef2 alpha) 0 1). apply is_lim_seq_ext with (fun i => solution (coef1 alpha) (coef2 alpha) 1 (cor1 alpha) j + (cor1 alpha ^ 2 - cor2 alpha ^ 2) * (h i * h (i + j)%nat)).
  - intros i. replace (i + j + 3)%nat with (i + j + 1 + 2)%nat by lia. rewrite latent_cov by (exact A || lia). replace (distance i (i + j)) with j by (unfold distance; lia). reflexivity.
  - replace (Finite (solution (coef1 alpha) (coef2 alpha) 1 (cor1 alpha) j)) with (Finite (solution (coef1 alpha) (coef2 alpha) 1 (cor1 alpha) j + (cor1 alpha ^ 2 - cor2 alpha ^ 2) * (0 * 0))) by (f_equal; ring). apply is_lim_seq_plus'; [apply is_lim_seq_const|]. apply (is_lim_seq_mult' (fun _ => cor1 alpha ^ 2 - cor2 alpha ^ 2)); [apply is_lim_seq_const|]. apply is_lim_seq_mult'; [apply response_lim, A|]. apply (is_lim_seq_incr_n h j 0). apply response_lim, A.
Qed.
(* the start *)
Lemma latent_start alpha ns : 0 < alpha < 1 -> (2 <= ns)%nat -> covariance (ns + 2) (latent alpha ns) 0 0 = 1 /\ (forall k, (k < ns)%nat -> covariance (ns + 2) (latent alpha ns) 0 k = solution (coef1 alpha) (coef2 alpha) 1 (cor1 alpha) k) /\ covariance (ns + 2) (latent alpha ns) 1 1 = 1 + cor1 alpha ^ 2 - cor2 alpha ^ 2.
Proof.
  intros A N. split; [rewrite latent_cov by (exact A || lia); change (distance 0 0) with 0%nat; cbn [solution]; ring|]. split.
  - intros k K. rewrite latent_cov by (exact A || lia). replace (distance 0 k) with k by (unfold distance; lia). change (solution (coef1 alpha) (coef2 alpha) 0 1 0) with 0. ring.
  - rewrite latent_cov by (exact A || lia). change (distance 1 1) with 0%nat. cbn [solution]. ring.
Qed.
Lemma half_unequal : cor1 (1 / 2) ^ 2 <> cor2 (1 / 2) ^ 2.
Proof.
  intros E. assert (A : 0 < 1 / 2 < 1) by lra. destruct (coef_facts (1 / 2) A) as [X [C1 [_ [_ [_ [I CB]]]]]]. set (x := best (1 / 2) * PI) in *. replace (2 * (1 / 2 * x)) with x in C1 by field. rewrite cos_2a_cos in I. rewrite <- C1 in I. pose proof PI_RGT_0. assert (CP : 0 < cor1 (1 / 2)) by (rewrite C1; apply cos_gt_0; lra). set (c := cor1 (1 / 2)) in *. unfold increments in I.
  assert (E2 : cor2 (1 / 2) = 2 * c - 1 - 2 * (1 - c) * (2 * c * c - 1)) by (rewrite <- I; field; lra). rewrite E2 in E. assert (F : (c - (2 * c - 1 - 2 * (1 - c) * (2 * c * c - 1))) * (c + (2 * c - 1 - 2 * (1 - c) * (2 * c * c - 1))) = 0) by lra. apply Rmult_integral in F. destruct F as [F|F].
  - assert (F' : (1 - c) * (4 * c * c - 1) = 0) by lra. apply Rmult_integral in F'. destruct F' as [F'|F']; [lra|]. assert (F2 : (2 * c - 1) * (2 * c + 1) = 0) by lra. apply Rmult_integral in F2. assert (C2 : c = 1 / 2) by (destruct F2; lra).
    rewrite C1, <- cos_PI3 in C2. assert (XE : x = PI / 3) by (rewrite <- (acos_cos x), <- (acos_cos (PI / 3)) by lra; f_equal; exact C2). destruct (best_inside (1 / 2) A) as [k [K [EB _]]]. assert (BE : best (1 / 2) = 1 / 3) by (apply Rmult_eq_reg_r with PI; [fold x; lra|lra]). rewrite EB in BE. assert (KE : INR k * 149997 = 99900000) by lra. rewrite INR_IZR_INZ, <- mult_IZR in KE. apply eq_IZR in KE. lia.
  - assert (F' : c * ((2 * c - 1) * (2 * c - 1)) + 1 = 0) by lra. assert (0 <= c * ((2 * c - 1) * (2 * c - 1))) by (apply Rmult_le_pos; [lra|apply Rle_0_sqr]). lra.
Qed.
Lemma start_wrong ns : (2 <= ns)%nat -> covariance (ns + 2) (latent (1 / 2) ns) 1 1 <> 1.
Proof. intros N E. destruct (latent_start (1 / 2) ns ltac:(lra) N) as [_ [_ Q]]. pose proof half_unequal. lra. Qed.
Lemma latent_recursion alpha ns d : (2 <= ns)%nat -> List.length (latent alpha ns d) = ns /\ nth 0 (latent alpha ns d) 0 = d ns /\
  forall k, (S (S k) < ns)%nat -> nth (S (S k)) (latent alpha ns d) 0 = d (S (S k)) * sqrt (innovation alpha) - coef1 alpha * nth (S k) (latent alpha ns d) 0 - coef2 alpha * nth k (latent alpha ns d) 0.
Proof. intros N. split; [apply latent_length|]. split; [rewrite latent_proc by lia; apply proc_0|]. intros k K. rewrite !latent_proc by lia. apply proc_SS. Qed.
Lemma half_case : 0 < 1 / 2 < 1 /\ (2 <= 3)%nat /\ covariance (3 + 2) (latent (1 / 2) 3) 0 1 = cor1 (1 / 2).
Proof. split; [lra|]. split; [lia|]. destruct (latent_start (1 / 2) 3 ltac:(lra) ltac:(lia)) as [_ [Q _]]. apply (Q 1%nat). lia. Qed.
