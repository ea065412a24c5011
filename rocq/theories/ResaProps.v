(* Theorems about resampling a spectrum (C155). *)
From Coq Require Import Reals ZArith List Bool.
From Verif Require Import Base ProcModel DiscSpec ResaModel ResaSpec ResaProofs4 ResaCases.
Import ListNotations.
Local Open Scope R_scope.

(* The new frequencies and values. *)

Theorem c155_resample : forall cubic tiny sp dt nmin nmax m dw, proper sp -> 0 < tiny -> 0 < wanted sp dt -> smallest_gap (args sp) dw -> m <> Unknown ->
  let new := nyquist_of sp (wanted sp dt) in let n := List.length (args sp) in (4 <= n + zeros_added sp new dw)%nat ->
  exists k F, let g := grid 0 new (2 ^ k) in
   resample cubic tiny sp dt nmin nmax m = (Spectrum g (map (fun t => Rmax (F t) 0) g) (hertz sp), Ok tt) /\
   (8 <= 2 ^ k)%nat /\ (n <= 2 ^ k + 1)%nat /\ (nmin <= Z.of_nat (2 ^ k + 1))%Z /\
   (new / INR (2 ^ k) <= nyquist sp / INR (n - 1) \/ (nmax <= Z.of_nat (2 ^ k + 1))%Z) /\
   ((m = Cubic -> passes cubic) -> (forall i, (i < n)%nat -> F (nth i (args sp) 0) = nth i (data sp) 0) /\ (0 < nth 0 (args sp) 0 -> F 0 = 0) /\ (nyquist sp < new -> F new = 0)) /\
   (m <> Cubic -> Forall (Rle 0) (data sp) -> forall t, 0 <= t <= nth 0 (args sp) 0 - dw \/ nyquist sp + dw <= t <= new -> F t <= 0).
Proof. exact (resample_spec). Qed.
Print Assumptions c155_resample.

Example c155_resample_case : proper band /\ 0 < wanted band (Some (1/16)) /\ smallest_gap (args band) 1 /\ nyquist_of band (wanted band (Some (1/16))) = 8 /\ zeros_added band 8 1 = 4%nat /\ Forall (Rle 0) (data band) /\ passes interp.
Proof. exact (spec_case). Qed.

Theorem c155_keeps : forall cubic tiny sp nmin nmax m j, proper sp -> 0 < tiny -> m <> Unknown -> (m = Cubic -> passes cubic) -> (2 <= j)%nat -> args sp = grid 0 (nyquist sp) (2 ^ j) -> Forall (Rle 0) (data sp) ->
  exists sp' r, resample cubic tiny sp None nmin nmax m = (sp', Ok tt) /\ (1 <= r)%nat /\ List.length (args sp') = (r * 2 ^ j + 1)%nat /\
   forall i, (i <= 2 ^ j)%nat -> nth (i * r) (args sp') 0 = nth i (args sp) 0 /\ nth (i * r) (data sp') 0 = nth i (data sp) 0.
Proof. exact (resample_keeps). Qed.
Print Assumptions c155_keeps.

Example c155_keeps_case : proper five /\ args five = grid 0 (nyquist five) (2 ^ 2) /\ Forall (Rle 0) (data five).
Proof. exact (keeps_case). Qed.

(* Calls that fail. *)

Theorem c155_few : forall cubic tiny sp dt nmin nmax m dw, proper sp -> 0 < wanted sp dt -> smallest_gap (args sp) dw ->
  (List.length (args sp) + zeros_added sp (nyquist_of sp (wanted sp dt)) dw < 4)%nat -> resample cubic tiny sp dt nmin nmax m = (sp, Err ValueError).
Proof. exact (resample_few). Qed.
Print Assumptions c155_few.

Example c155_few_case : let sp := Spectrum [0; 1] [1; 2] true in proper sp /\ 0 < wanted sp None /\ smallest_gap (args sp) 1 /\ zeros_added sp (nyquist_of sp (wanted sp None)) 1 = 0%nat.
Proof. exact (few_case). Qed.

Theorem c155_empty : forall cubic tiny d h dt nmin nmax m, resample cubic tiny (Spectrum [] d h) dt nmin nmax m = (Spectrum [] d h, Err IndexError).
Proof. exact (resample_empty). Qed.
Print Assumptions c155_empty.

Theorem c155_one : forall cubic tiny w d h nmin nmax m, 0 < w -> resample cubic tiny (Spectrum [w] d h) None nmin nmax m = (Spectrum [w] d h, Err IndexError).
Proof. exact (resample_one). Qed.
Print Assumptions c155_one.

Theorem c155_unknown : forall cubic tiny sp dt nmin nmax dw, proper sp -> 0 < tiny -> 0 < wanted sp dt -> smallest_gap (args sp) dw ->
  (4 <= List.length (args sp) + zeros_added sp (nyquist_of sp (wanted sp dt)) dw)%nat ->
  exists g, resample cubic tiny sp dt nmin nmax Unknown = (Spectrum g (data sp) (hertz sp), Err NotImplementedError) /\ (9 <= List.length g)%nat.
Proof. exact (resample_unknown). Qed.
Print Assumptions c155_unknown.

(* What the documentation promises besides. *)

Theorem c155_unchanged_refuted : forall cubic tiny m nmin nmax, 0 < tiny -> m <> Unknown -> exists sp', resample cubic tiny five None nmin nmax m = (sp', Ok tt) /\ List.length (args five) = 5%nat /\ (9 <= List.length (args sp'))%nat.
Proof. exact (refuted_unchanged). Qed.
Print Assumptions c155_unchanged_refuted.

Theorem c155_nmax_refuted : forall cubic tiny m dt nmin, 0 < tiny -> m <> Unknown -> 0 < dt -> exists sp', resample cubic tiny five (Some dt) nmin 8 m = (sp', Ok tt) /\ (8 < List.length (args sp'))%nat.
Proof. exact (refuted_nmax). Qed.
Print Assumptions c155_nmax_refuted.

Theorem c155_failure_refuted : forall cubic tiny nmin nmax, 0 < tiny -> exists g, resample cubic tiny five None nmin nmax Unknown = (Spectrum g (data five) true, Err NotImplementedError) /\ (List.length g > List.length (data five))%nat.
Proof. exact (refuted_failure). Qed.
Print Assumptions c155_failure_refuted.
