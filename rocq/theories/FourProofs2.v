(* The coefficients of a sampled trigonometric sum. *)
From Coq Require Import Reals List ZArith Lra Lia.
From Verif Require Import Base PolyModel TransModel OrthoModel OrthoProofs FourModel FourSpec FourProofs.
Import ListNotations.
Local Open Scope R_scope.

Lemma map2_self {A B C} (f : B -> A -> C) (g : A -> B) l : map2 f (map g l) l = map (fun x => f (g x) x) l.
Proof. induction l as [|a l IH]; [reflexivity|]. cbn [map map2]. rewrite IH. reflexivity. Qed.
Lemma angle N q T t0 k j : T <> 0 -> (0 < N)%nat -> 2 * PI * INR k * (t0 + INR j * (INR q * T / INR N)) / T = INR k * al N q (2 * PI * t0 / T) j.
Proof. intros HT HN. unfold al. field. split; [apply not_0_INR; lia|exact HT]. Qed.
Lemma angle' N q T t0 i j : T <> 0 -> (0 < N)%nat -> INR i * (2 * PI * (t0 + INR j * (INR q * T / INR N)) / T) = INR i * al N q (2 * PI * t0 / T) j.
Proof. intros HT HN. unfold al. field. split; [apply not_0_INR; lia|exact HT]. Qed.
Lemma series_ser c s K N q T t0 j : T <> 0 -> (0 < N)%nat -> series c s K T (t0 + INR j * (INR q * T / INR N)) = ser c s K N q (2 * PI * t0 / T) j.
Proof. intros HT HN. unfold series, ser. rewrite sum_vsum. f_equal. apply vsum_ext. intros k _. rewrite !angle by assumption. reflexivity. Qed.
Lemma turn N q phi k : (0 < N)%nat -> cos (INR k * al N q phi N) = cos (INR k * al N q phi 0) /\ sin (INR k * al N q phi N) = sin (INR k * al N q phi 0).
Proof.
  intros HN. assert (E : INR k * al N q phi N = INR k * al N q phi 0 + 2 * INR (k * q) * PI) by (unfold al; rewrite mult_INR; cbn [INR]; field; apply not_0_INR; lia). rewrite E. split; [apply cos_period|apply sin_period].
Qed.
Lemma ser_turn c s K N q phi : (0 < N)%nat -> ser c s K N q phi N = ser c s K N q phi 0.
Proof. intros HN. unfold ser. f_equal. apply vsum_ext. intros k _. destruct (turn N q phi (S k) HN) as [-> ->]. reflexivity. Qed.

Definition part (K i : nat) (c : nat -> R) : R := if (i <=? K)%nat then c i else 0.
Lemma integral_one c s K N q T t0 : 0 < T -> (0 < q)%nat -> (q * K < N)%nat -> trapz (map (series c s K T) (sampled t0 T q N)) (sampled t0 T q N) / PI = INR q * T / (2 * PI) * c 0%nat.
Proof.
  intros HT Hq B. assert (HN : (0 < N)%nat) by lia. assert (PN : 0 < INR N) by (apply lt_0_INR; exact HN). unfold sampled. rewrite map_map. rewrite (map_ext (fun x => series c s K T (t0 + INR x * (INR q * T / INR N))) (ser c s K N q (2 * PI * t0 / T))) by (intros j; apply series_ser; [lra|exact HN]).
  rewrite (trapz_periodic (ser c s K N q (2 * PI * t0 / T)) t0 (INR q * T / INR N) N (ser_turn c s K N q (2 * PI * t0 / T) HN)). rewrite (proj_one c s K N q (2 * PI * t0 / T) HN Hq B). pose proof PI_neq0 as PP. field. split; [exact PP|lra].
Qed.
Lemma integral_cos c s K N q T t0 i : 0 < T -> (0 < q)%nat -> (q * (K + i) < N)%nat -> (1 <= i)%nat ->
  coefficient cos (sampled t0 T q N) T i (map (series c s K T) (sampled t0 T q N)) = Some (INR q * T / (2 * PI) * part K i c).
Proof.
  intros HT Hq B Hi. assert (HN : (0 < N)%nat) by lia. assert (PN : 0 < INR N) by (apply lt_0_INR; exact HN). unfold coefficient. destruct (Req_EM_T T 0); [lra|]. f_equal. rewrite map2_self. unfold sampled at 1. rewrite map_map.
  set (phi := 2 * PI * t0 / T). rewrite (map_ext (fun x => series c s K T (t0 + INR x * (INR q * T / INR N)) * cos (INR i * (2 * PI * (t0 + INR x * (INR q * T / INR N)) / T))) (fun j => ser c s K N q phi j * cos (INR i * al N q phi j)))
    by (intros j; unfold phi; rewrite series_ser, angle' by (assumption || lra); reflexivity).
  unfold sampled. rewrite (trapz_periodic (fun j => ser c s K N q phi j * cos (INR i * al N q phi j)) t0 (INR q * T / INR N) N) by (rewrite ser_turn by exact HN; rewrite (proj1 (turn N q phi i HN)); reflexivity).
  rewrite (proj_cos c s K N q phi i HN Hq B Hi). unfold part. pose proof PI_neq0 as PP. field. split; [exact PP|lra].
Qed.
Lemma integral_sin c s K N q T t0 i : 0 < T -> (0 < q)%nat -> (q * (K + i) < N)%nat -> (1 <= i)%nat ->
  coefficient sin (sampled t0 T q N) T i (map (series c s K T) (sampled t0 T q N)) = Some (INR q * T / (2 * PI) * part K i s).
Proof.
  intros HT Hq B Hi. assert (HN : (0 < N)%nat) by lia. assert (PN : 0 < INR N) by (apply lt_0_INR; exact HN). unfold coefficient. destruct (Req_EM_T T 0); [lra|]. f_equal. rewrite map2_self. unfold sampled at 1. rewrite map_map.
  set (phi := 2 * PI * t0 / T). rewrite (map_ext (fun x => series c s K T (t0 + INR x * (INR q * T / INR N)) * sin (INR i * (2 * PI * (t0 + INR x * (INR q * T / INR N)) / T))) (fun j => ser c s K N q phi j * sin (INR i * al N q phi j)))
    by (intros j; unfold phi; rewrite series_ser, angle' by (assumption || lra); reflexivity).
  unfold sampled. rewrite (trapz_periodic (fun j => ser c s K N q phi j * sin (INR i * al N q phi j)) t0 (INR q * T / INR N) N) by (rewrite ser_turn by exact HN; rewrite (proj2 (turn N q phi i HN)); reflexivity).
  rewrite (proj_sin c s K N q phi i HN Hq B Hi). unfold part. pose proof PI_neq0 as PP. field. split; [exact PP|lra].
Qed.
Lemma sampled_length t0 T q N : List.length (sampled t0 T q N) = (N + 1)%nat. Proof. unfold sampled. now rewrite map_length, seq_length. Qed.
Lemma fourier_coefficients (rows : list ((nat -> R) * (nat -> R))) K q N T t0 m : 0 < T -> (0 < q)%nat -> (1 <= m)%nat -> (q * (K + (m - 1)) < N)%nat ->
  let t := sampled t0 T q N in let L := INR q * T in
  let upto (c : nat -> R) i := if (i <=? K)%nat then c i else 0 in
  fourier (map (fun cs => map (series (fst cs) (snd cs) K T) t) rows) (N + 1) (Some (Flat t)) (Some T) (Some (Z.of_nat m)) =
  Ok (map (fun i => map (fun cs => Some (L / (2 * PI) * upto (fst cs) i)) rows) (seq 0 m),
      map (fun i => map (fun cs => Some (if (i =? 0)%nat then 0 else L / (2 * PI) * upto (snd cs) i)) rows) (seq 0 m),
      Some (Row t)).
Proof.
  intros HT Hq Hm B t L upto. unfold fourier. cbn [bind values]. destruct (Z.ltb_spec (Z.of_nat m) 0); [lia|]. unfold t at 1. rewrite sampled_length, Nat.eqb_refl. cbn [negb]. destruct (Z.eqb_spec (Z.of_nat m) 0); [lia|]. rewrite Nat2Z.id.
  assert (SQ : seq 0 m = 0%nat :: seq 1 (m - 1)) by (destruct m; [lia|]; cbn [seq]; replace (S m - 1)%nat with m by lia; reflexivity). rewrite SQ. cbn [map].
  assert (A0 : map (fun row => Some (trapz row t / PI)) (map (fun cs => map (series (fst cs) (snd cs) K T) t) rows) = map (fun cs => Some (L / (2 * PI) * upto (fst cs) 0%nat)) rows).
  { rewrite map_map. apply map_ext. intros cs. f_equal. unfold t. rewrite integral_one by (lra || nia). reflexivity. }
  assert (B0 : map (fun _ => Some (0 / PI)) (map (fun cs => map (series (fst cs) (snd cs) K T) t) rows) = map (fun cs => Some (if (0 =? 0)%nat then 0 else L / (2 * PI) * upto (snd cs) 0%nat)) rows).
  { rewrite map_map. apply map_ext. intros cs. f_equal. cbn [Nat.eqb]. unfold Rdiv. ring. }
  rewrite A0, B0. do 2 f_equal. f_equal; f_equal; apply map_ext_in; intros i Hi; apply in_seq in Hi; rewrite map_map; apply map_ext; intros cs; unfold t.
  - rewrite integral_cos by (lra || nia). reflexivity.
  - rewrite integral_sin by (lra || nia). destruct (Nat.eqb_spec i 0); [lia|reflexivity].
Qed.
Lemma fourier_default_period x n t m : t <> [] -> fourier x n (Some (Flat t)) None m = fourier x n (Some (Flat t)) (Some (last t 0 - nth 0 t 0)) m.
Proof. intros N. destruct t as [|a t]; [contradiction|reflexivity]. Qed.
Lemma nth_map_in {A B} (f : A -> B) l i d d' : (i < List.length l)%nat -> nth i (map f l) d' = f (nth i l d).
Proof. intros H. rewrite nth_indep with (d' := f d) by (rewrite map_length; exact H). apply map_nth. Qed.
(* the documented series of the coefficients *)
Lemma fourier_estimate rows K q N T t0 m a b t' r u : 0 < T -> (0 < q)%nat -> (1 <= m)%nat -> (q * (K + (m - 1)) < N)%nat -> (K < m)%nat -> (r < List.length rows)%nat ->
  let t := sampled t0 T q N in let cs := nth r rows (fun _ => 0, fun _ => 0) in
  fourier (map (fun cs => map (series (fst cs) (snd cs) K T) t) rows) (N + 1) (Some (Flat t)) (Some T) (Some (Z.of_nat m)) = Ok (a, b, t') ->
  series (entry a r) (entry b r) (m - 1) T u = INR q * T / (2 * PI) * series (fst cs) (snd cs) K T u.
Proof.
  intros HT Hq Hm B KM Hr t cs H. unfold t in H. rewrite (fourier_coefficients rows K q N T t0 m HT Hq Hm B) in H. cbv zeta in H. set (L := INR q * T) in *.
  assert (Ha : forall i, (i < m)%nat -> entry a r i = L / (2 * PI) * part K i (fst cs)).
  { intros i Hi. assert (E : a = map (fun i => map (fun cs => Some (L / (2 * PI) * (if (i <=? K)%nat then fst cs i else 0))) rows) (seq 0 m)) by congruence. rewrite E. unfold entry. rewrite (nth_map_in _ (seq 0 m) i 0%nat) by (rewrite seq_length; exact Hi). rewrite seq_nth by exact Hi. cbn [Nat.add]. rewrite (nth_map_in _ rows r (fun _ => 0, fun _ => 0)) by exact Hr. reflexivity. }
  assert (Hb : forall i, (1 <= i < m)%nat -> entry b r i = L / (2 * PI) * part K i (snd cs)).
  { intros i Hi. assert (E : b = map (fun i => map (fun cs => Some (if (i =? 0)%nat then 0 else L / (2 * PI) * (if (i <=? K)%nat then snd cs i else 0))) rows) (seq 0 m)) by congruence. rewrite E. unfold entry. rewrite (nth_map_in _ (seq 0 m) i 0%nat) by (rewrite seq_length; lia). rewrite seq_nth by lia. cbn [Nat.add]. rewrite (nth_map_in _ rows r (fun _ => 0, fun _ => 0)) by exact Hr. destruct (Nat.eqb_spec i 0); [lia|reflexivity]. }
  unfold series. rewrite !sum_vsum. rewrite Ha by lia. rewrite Rmult_plus_distr_l. f_equal; [unfold part; cbn [Nat.leb]; field; apply PI_neq0|].
  rewrite <- vsum_scal. rewrite (vsum_ext (m - 1) _ (fun k => if (S k <=? K)%nat then L / (2 * PI) * (fst cs (S k) * cos (2 * PI * INR (S k) * u / T) + snd cs (S k) * sin (2 * PI * INR (S k) * u / T)) else 0)).
  2:{ intros k Hk. rewrite Ha, Hb by lia. unfold part. destruct (S k <=? K)%nat; ring. }
  assert (SH : forall M f, (K <= M)%nat -> vsum M (fun k => if (S k <=? K)%nat then f k else 0) = vsum K f).
  { clear. intros M f H. induction H as [|M H IH]; [apply vsum_ext; intros k Hk; destruct (Nat.leb_spec (S k) K); [reflexivity|lia]|]. cbn [vsum]. rewrite IH. destruct (Nat.leb_spec (S M) K); [lia|ring]. }
  rewrite (SH (m - 1)%nat (fun k => L / (2 * PI) * (fst cs (S k) * cos (2 * PI * INR (S k) * u / T) + snd cs (S k) * sin (2 * PI * INR (S k) * u / T)))) by lia. reflexivity.
Qed.
Lemma fourier_recovers rows K q N T t0 m a b t' r u : 0 < T -> (0 < q)%nat -> (1 <= m)%nat -> (q * (K + (m - 1)) < N)%nat -> (K < m)%nat -> (r < List.length rows)%nat -> INR q * T = 2 * PI ->
  let t := sampled t0 T q N in let cs := nth r rows (fun _ => 0, fun _ => 0) in
  fourier (map (fun cs => map (series (fst cs) (snd cs) K T) t) rows) (N + 1) (Some (Flat t)) (Some T) (Some (Z.of_nat m)) = Ok (a, b, t') ->
  series (entry a r) (entry b r) (m - 1) T u = series (fst cs) (snd cs) K T u.
Proof. intros HT Hq Hm B KM Hr E t cs H. rewrite (fourier_estimate rows K q N T t0 m a b t' r u HT Hq Hm B KM Hr H). rewrite E. fold cs. field. apply PI_neq0. Qed.
(* the constant signal 1 over one period of length 1 *)
Lemma fourier_scale : exists t a b t', fourier [map (fun _ => 1) t] 5 (Some (Flat t)) (Some 1) (Some 2%Z) = Ok (a, b, t') /\ t = sampled 0 1 1 4 /\ forall u, series (entry a 0) (entry b 0) 1 1 u = 1 / (2 * PI) /\ 1 / (2 * PI) < 1.
Proof.
  set (c := fun k : nat => if (k =? 0)%nat then 2 else 0). set (z := fun _ : nat => 0). set (rows := [(c, z)]).
  pose proof (fourier_coefficients rows 0 1 4 1 0 2 ltac:(lra) ltac:(lia) ltac:(lia) ltac:(lia)) as F. cbv zeta in F.
  assert (X : map (fun cs => map (series (fst cs) (snd cs) 0 1) (sampled 0 1 1 4)) rows = [map (fun _ => 1) (sampled 0 1 1 4)]).
  { unfold rows. cbn [map fst snd]. f_equal. all: try reflexivity. apply map_ext. intros u. unfold series, c. cbn [sum Nat.eqb]. field. }
  rewrite X in F. exists (sampled 0 1 1 4). eexists; eexists; eexists. split; [exact F|]. split; [reflexivity|]. intros u. split.
  - rewrite <- X in F. pose proof (fourier_estimate rows 0 1 4 1 0 2 _ _ _ 0 u ltac:(lra) ltac:(lia) ltac:(lia) ltac:(lia) ltac:(lia) ltac:(cbn; lia) F) as Q. change (2 - 1)%nat with 1%nat in Q. etransitivity; [exact Q|]. unfold rows. cbn [nth fst snd]. unfold series, c. cbn [sum Nat.eqb INR]. field. apply PI_neq0.
  - pose proof PI_RGT_0. pose proof PI2_1. apply Rmult_lt_reg_r with (2 * PI); [lra|]. unfold Rdiv. rewrite Rmult_assoc, Rinv_l by lra. lra.
Qed.
(* the caller's array of times *)
Lemma fourier_twice x t m a b t' i r : (2 <= List.length t)%nat -> (1 <= i)%nat -> (i < Z.to_nat m)%nat -> (r < List.length x)%nat -> fourier x (List.length t) (Some (Flat t)) None (Some m) = Ok (a, b, t') ->
  t' = Some (Row t) /\ exists a' b', fourier x (List.length t) t' None (Some m) = Ok (a', b', t') /\ nth r (nth i a' []) (Some 0) = None /\ nth r (nth i b' []) (Some 0) = None.
Proof.
  intros L Hi Him Hr H. unfold fourier in H. cbn [values] in H. destruct (default_period (Flat t)) as [T|]; [|discriminate]. cbn [bind] in H. destruct (Z.ltb_spec m 0) as [|P]; [lia|]. rewrite Nat.eqb_refl in H. cbn [negb] in H. destruct (Z.eqb_spec m 0) as [|NZ]; [lia|].
  assert (E : t' = Some (Row t)) by congruence. split; [exact E|]. subst t'. unfold fourier. cbn [values default_period bind]. destruct (Z.ltb_spec m 0); [lia|]. rewrite Nat.eqb_refl. cbn [negb]. destruct (Z.eqb_spec m 0); [lia|]. eexists; eexists. split; [reflexivity|].
  destruct i as [|i]; [lia|]. cbn [nth]. rewrite !(nth_map_in _ (seq 1 (Z.to_nat m - 1)) i 0%nat) by (rewrite seq_length; lia). rewrite !(nth_map_in _ x r []) by exact Hr. unfold coefficient. destruct (Req_EM_T 0 0) as [_|C]; [|contradiction]. destruct t as [|t1 [|t2 t]]; cbn [List.length] in L; [lia|lia|]. split; reflexivity.
Qed.
Lemma fourier_errors x n t T : (forall m, (m < 0)%Z -> fourier x n t (Some T) (Some m) = Err ValueError) /\ (fourier x n None (Some T) (Some 0%Z) = Err IndexError) /\ fourier x 0 None None None = Err IndexError /\ (forall u m, List.length (values u) <> n -> fourier x n (Some u) (Some T) m = Err ValueError).
Proof.
  unfold fourier. cbn [bind]. split; [|split; [|split]].
  - intros m H. destruct (Z.ltb_spec m 0); [reflexivity|lia].
  - cbn [values]. rewrite map_length, seq_length, Nat.eqb_refl. reflexivity.
  - reflexivity.
  - intros u m H. destruct (_ <? 0)%Z; [reflexivity|]. destruct (Nat.eqb_spec (List.length (values u)) n); [contradiction|reflexivity].
Qed.
(* a case: cos over one period, 6 samples *)
Lemma fourier_case : let t := sampled 0 (2 * PI) 1 5 in fourier [map cos t] 6 (Some (Flat t)) (Some (2 * PI)) (Some 3%Z) = Ok ([[Some 0]; [Some 1]; [Some 0]], [[Some 0]; [Some 0]; [Some 0]], Some (Row t)).
Proof.
  intros t. pose proof PI_RGT_0 as PP. set (c := fun k : nat => if (k =? 1)%nat then 1 else 0). set (z := fun _ : nat => 0).
  pose proof (fourier_coefficients [(c, z)] 1 1 5 (2 * PI) 0 3 ltac:(lra) ltac:(lia) ltac:(lia) ltac:(lia)) as F. cbv zeta in F. fold t in F.
  assert (X : map (fun cs => map (series (fst cs) (snd cs) 1 (2 * PI)) t) [(c, z)] = [map cos t]).
  { cbn [map fst snd]. f_equal. apply map_ext. intros u. unfold series, c, z. cbn [sum Nat.eqb INR]. replace (2 * PI * 1 * u / (2 * PI)) with u by (field; lra). field. }
  rewrite X in F. change (5 + 1)%nat with 6%nat in F. change (Z.of_nat 3) with 3%Z in F. rewrite F. cbn [seq map fst snd Nat.leb Nat.eqb]. unfold c, z. cbn [Nat.eqb INR]. replace (1 * (2 * PI) / (2 * PI)) with 1 by (field; lra).
  rewrite !Rmult_0_r, !Rmult_1_r. reflexivity.
Qed.
Lemma sampled_ends t0 T N : (0 < N)%nat -> nth 0 (sampled t0 T 1 N) 0 = t0 /\ last (sampled t0 T 1 N) 0 = t0 + T.
Proof.
  intros HN. unfold sampled. split; [rewrite Nat.add_1_r; cbn [seq map nth INR]; ring|]. rewrite seq_app, map_app. cbn [seq map Nat.add]. rewrite last_last. cbn [INR]. field. apply not_0_INR. lia.
Qed.
Lemma fourier_default x n t0 T N m : (0 < N)%nat -> fourier x n (Some (Flat (sampled t0 T 1 N))) None m = fourier x n (Some (Flat (sampled t0 T 1 N))) (Some T) m.
Proof.
  intros HN. destruct (sampled_ends t0 T N HN) as [E1 E2]. rewrite fourier_default_period; [rewrite E1, E2; f_equal; f_equal; ring|]. intros E. pose proof (sampled_length t0 T 1 N) as L. rewrite E in L. cbn in L. lia.
Qed.
Lemma fourier_default_m x n t T : fourier x n t T None = fourier x n t T (Some (Z.of_nat n)).
Proof. reflexivity. Qed.
