(* Concrete level crossing spectra. *)
From Coq Require Import Reals List ZArith Lra Lia String.
From Verif Require Import Base PolyModel ProcModel LcxModel LcxSpec LcxProofs LcxProofs2.
Import ListNotations.
Local Open Scope R_scope.
Local Open Scope string_scope.

(* the least squares line exists *)
Definition tot (f : R * R -> R) (l : list (R * R)) : R := total (map f l).
Definition line (x y : list R) : R * R :=
  let l := combine x y in
  let n := tot (fun _ => 1) l in let sx := tot fst l in let sy := tot snd l in
  let det := n * tot (fun p => fst p * fst p) l - sx * sx in
  if Req_EM_T det 0 then (0, sy / n) else let a := (n * tot (fun p => fst p * snd p) l - sx * sy) / det in (a, (sy - a * sx) / n).
Lemma tot_lin a b f g l : tot (fun p => a * f p + b * g p) l = a * tot f l + b * tot g l.
Proof. unfold tot. induction l as [|p l IH]; cbn [map total]; [ring|]. rewrite IH. ring. Qed.
Lemma tot_ext f g l : (forall p, In p l -> f p = g p) -> tot f l = tot g l.
Proof. intros H. unfold tot. f_equal. apply map_ext_in, H. Qed.
Lemma tot_sq f l : 0 <= tot (fun p => (f p) ^ 2) l.
Proof. unfold tot. induction l as [|p l IH]; cbn [map total]; [lra|]. pose proof (Rle_0_sqr (f p)) as Q. rewrite Rsqr_pow2 in Q. lra. Qed.
Lemma tot_len l : l <> [] -> 0 < tot (fun _ => 1) l.
Proof. assert (P : forall l0 : list (R * R), 0 <= tot (fun _ => 1) l0) by (intros l0; unfold tot; induction l0 as [|p l0 IH]; cbn [map total]; lra). destruct l as [|p l]; [contradiction|]. intros _. pose proof (P l). unfold tot in *. cbn [map total]. lra. Qed.
Lemma normal_min l p q : tot (fun z => snd z - (fst p * fst z + snd p)) l = 0 -> tot (fun z => (snd z - (fst p * fst z + snd p)) * fst z) l = 0 ->
  tot (fun z => (snd z - (fst p * fst z + snd p)) ^ 2) l <= tot (fun z => (snd z - (fst q * fst z + snd q)) ^ 2) l.
Proof.
  intros A B. set (e := fun z : R * R => snd z - (fst p * fst z + snd p)) in *. set (d := fun z : R * R => (fst p - fst q) * fst z + (snd p - snd q)).
  rewrite (tot_ext (fun z => (snd z - (fst q * fst z + snd q)) ^ 2) (fun z => 1 * (1 * (e z) ^ 2 + 2 * (e z * d z)) + 1 * (d z) ^ 2)) by (intros z _; unfold e, d; ring).
  rewrite (tot_lin 1 1 (fun z => 1 * (e z) ^ 2 + 2 * (e z * d z)) (fun z => (d z) ^ 2)), (tot_lin 1 2 (fun z => (e z) ^ 2) (fun z => e z * d z)).
  rewrite (tot_ext (fun z => e z * d z) (fun z => (fst p - fst q) * (e z * fst z) + (snd p - snd q) * e z)) by (intros z _; unfold d; ring). rewrite (tot_lin _ _ (fun z => e z * fst z) e). unfold e in A, B |- *. rewrite A, B. pose proof (tot_sq d l). lra.
Qed.
Lemma line_least : least_squares line.
Proof.
  intros x y q _. unfold residual. set (l := combine x y). destruct l as [|z0 l0] eqn:EL; [cbn; lra|]. rewrite <- EL. assert (NE : l <> []) by (rewrite EL; discriminate). clear EL z0 l0. pose proof (tot_len l NE) as NP. apply (normal_min l (line x y) q); unfold line; fold l; set (n := tot (fun _ => 1) l) in *; set (sx := tot fst l); set (sy := tot snd l); set (sxx := tot (fun p => fst p * fst p) l); set (sxy := tot (fun p => fst p * snd p) l); destruct (Req_EM_T (n * sxx - sx * sx) 0) as [D|D]; cbn [fst snd].
  - rewrite (tot_ext _ (fun z => 1 * snd z + (- (sy / n)) * 1)) by (intros z _; ring). rewrite (tot_lin 1 (- (sy / n)) snd (fun _ => 1)). fold n sy. field. lra.
  - set (a := (n * sxy - sx * sy) / (n * sxx - sx * sx)). rewrite (tot_ext _ (fun z => 1 * (1 * snd z + (- a) * fst z) + (- ((sy - a * sx) / n)) * 1)) by (intros z _; ring). rewrite (tot_lin 1 _ (fun z => 1 * snd z + (- a) * fst z) (fun _ => 1)), (tot_lin 1 _ snd fst). fold n sy sx. field. lra.
  - assert (X : forall z, In z l -> fst z - sx / n = 0).
    { apply (total_sq_0 (fun z => fst z - sx / n)). fold (tot (fun z => (fst z - sx / n) ^ 2) l). right. rewrite (tot_ext _ (fun z => 1 * (1 * (fst z * fst z) + (- (2 * (sx / n))) * fst z) + (sx / n) ^ 2 * 1)) by (intros z _; ring). rewrite (tot_lin 1 _ (fun z => 1 * (fst z * fst z) + (- (2 * (sx / n))) * fst z) (fun _ => 1)), (tot_lin 1 _ (fun z => fst z * fst z) fst). fold n sx sxx. transitivity ((n * sxx - sx * sx) / n); [field; lra|]. rewrite D. unfold Rdiv. ring. }
    rewrite (tot_ext _ (fun z => (sx / n) * snd z + (- (sx / n * (sy / n))) * 1)) by (intros z Hz; pose proof (X z Hz) as Q; replace (fst z) with (sx / n) by lra; ring). rewrite (tot_lin _ _ snd (fun _ => 1)). fold n sy. field. lra.
  - set (a := (n * sxy - sx * sy) / (n * sxx - sx * sx)). rewrite (tot_ext _ (fun z => 1 * (1 * (fst z * snd z) + (- a) * (fst z * fst z)) + (- ((sy - a * sx) / n)) * fst z)) by (intros z _; ring). rewrite (tot_lin 1 _ (fun z => 1 * (fst z * snd z) + (- a) * (fst z * fst z)) fst), (tot_lin 1 _ (fun z => fst z * snd z) (fun z => fst z * fst z)). fold sx sxx sxy. unfold a. field. split; lra.
Qed.
(* the levels -11, -10, ..., 11 *)
Definition whole_levels : list R := map (fun k => INR k - 11) (seq 0 23).
Lemma whole_nth k : (k < 23)%nat -> nth k whole_levels 0 = INR k - 11.
Proof. intros H. unfold whole_levels. rewrite nth_indep with (d' := (fun k => INR k - 11) 0%nat) by (rewrite map_length, seq_length; exact H). rewrite (map_nth (fun k => INR k - 11)), seq_nth by exact H. reflexivity. Qed.
Lemma exact_case : least_squares line /\ 0 < 100 /\ 0 < 3 /\ increasingR whole_levels /\ (22 <= List.length whole_levels)%nat /\ (11 < List.length whole_levels)%nat /\ nth 11 whole_levels 0 = 0.
Proof.
  assert (L : List.length whole_levels = 23%nat) by (unfold whole_levels; rewrite map_length, seq_length; reflexivity). split; [exact line_least|]. split; [lra|]. split; [lra|]. split; [|rewrite L; split; [lia|]; split; [lia|]; rewrite whole_nth by lia; cbn; lra].
  intros i j H. rewrite L in H. rewrite !whole_nth by lia. assert (INR i < INR j) by (apply lt_INR; lia). lra.
Qed.
Lemma tail_case : let data := [1; 3; 9; 4; 2] in let args := [0; 1; 2; 3; 4] in known "expon" /\ increasingR args /\ List.length data = List.length args /\ (forall d, In d data -> 0 <= d) /\ 1 / 2 < 5 / 2 /\
  (exists k, (k < List.length args)%nat /\ nth k args 0 < 1 / 2) /\ (exists k, (k < List.length args)%nat /\ 5 / 2 < nth k args 0) /\ common data args = [2; 3].
Proof.
  cbv zeta. split; [right; left; reflexivity|]. split.
  - intros i j H. cbn [List.length] in H. destruct j as [|[|[|[|[|j]]]]]; try lia; destruct i as [|[|[|[|i]]]]; try lia; cbn [nth]; lra.
  - split; [reflexivity|]. split; [intros d H; cbn in H; repeat destruct H as [<-|H]; try lra; destruct H|]. split; [lra|]. split; [exists 0%nat; cbn; split; [lia|lra]|]. split; [exists 3%nat; cbn [List.length nth]; split; [lia|lra]|].
    assert (A : SpectModel.argmaxR [1; 3; 9; 4; 2] = 2%nat). { destruct (SpectProofs7.argmaxR_spec [1; 3; 9; 4; 2] ltac:(discriminate)) as [L [M _]]. set (p := SpectModel.argmaxR [1; 3; 9; 4; 2]) in *. cbn [List.length] in L, M. pose proof (M 2%nat ltac:(lia)) as Q. unfold at_R in Q. destruct p as [|[|[|[|[|p]]]]]; cbn [nth] in Q; try lra; try lia; reflexivity. }
    unfold common. rewrite A. change (at_R [1; 3; 9; 4; 2] 2) with 9. replace (sqrt 9) with 3 by (replace 9 with (3 * 3) by ring; rewrite sqrt_square by lra; reflexivity). cbn [combine filter fst]. destruct (Rlt_dec 3 1); [lra|]. destruct (Rlt_dec 3 3); [lra|]. destruct (Rlt_dec 3 9); [|lra]. destruct (Rlt_dec 3 4); [|lra]. destruct (Rlt_dec 3 2); [lra|]. reflexivity.
Qed.
(* the exceedances of 5/2 *)
Lemma sample_case : exceedances [0; 1; 2; 3; 4] [1; 3; 9; 4; 2] (5 / 2) [3 / 2; 3 / 2; 1 / 2; 1 / 2].
Proof.
  split; [intros v H; cbn in H; repeat destruct H as [<-|H]; try lra; destruct H|]. intros k m L U [[j [Lj Ej]] M]. cbn [List.length] in *.
  assert (F : forall n : Z, m = IZR n -> floor m = n) by (intros n ->; apply ProcProofs.floor_unique; lra).
  destruct k as [|[|[|[|[|k]]]]]; cbn [nth] in U; try lra; try lia.
  - assert (m = 4) by (pose proof (M 3%nat ltac:(lia)) as Q; cbn [nth] in Q; destruct j as [|[|[|[|[|j]]]]]; try lia; cbn [nth] in Ej; lra). rewrite (F 4%Z) by assumption. cbn [nth]. unfold count_from. cbn [filter]. destruct (Rle_dec (3 - 5 / 2) (3 / 2)); [|lra]. destruct (Rle_dec (3 - 5 / 2) (1 / 2)); [|lra]. reflexivity.
  - assert (m = 2) by (destruct j as [|[|[|[|[|j]]]]]; try lia; cbn [nth] in Ej; lra). rewrite (F 2%Z) by assumption. cbn [nth]. unfold count_from. cbn [filter]. destruct (Rle_dec (4 - 5 / 2) (3 / 2)); [|lra]. destruct (Rle_dec (4 - 5 / 2) (1 / 2)); [lra|]. reflexivity.
Qed.
