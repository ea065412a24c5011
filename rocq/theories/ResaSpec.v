(* What resampling a spectrum promises (documentation of SpecData1D.resample). *)
From Coq Require Import Reals List ZArith.
From Verif Require Import DiscSpec ResaModel.
Import ListNotations.
Local Open Scope R_scope.

(* [increasing x], and [grid a b m]: m + 1 equally spaced points from a to b, are in DiscSpec *)
(* a spectral density: increasing frequencies >= 0 and as many values *)
Definition proper (sp : spectrum) : Prop :=
  (2 <= List.length (args sp))%nat /\ List.length (data sp) = List.length (args sp) /\ increasing (args sp) /\ 0 <= nth 0 (args sp) 0.
Definition nyquist (sp : spectrum) : R := last (args sp) 0.
(* the Nyquist frequency that belongs to a sampling interval: 1/(2 dt) in Hertz, pi/dt in radians *)
Definition nyquist_of (sp : spectrum) (dt : R) : R := (if hertz sp then 1/2 else PI) / dt.
Definition sampling_interval (sp : spectrum) : R := (if hertz sp then 1/2 else PI) / nyquist sp.
Definition wanted (sp : spectrum) (dt : option R) : R := match dt with Some d => d | None => sampling_interval sp end.
(* the smallest distance of two frequencies *)
Definition smallest_gap (w : list R) (d : R) : Prop :=
  (forall i, (S i < List.length w)%nat -> d <= nth (S i) w 0 - nth i w 0) /\ exists i, (S i < List.length w)%nat /\ d = nth (S i) w 0 - nth i w 0.
(* a spline passes through its points *)
Definition passes (cubic : list R -> list R -> R -> R) : Prop :=
  forall x y i, increasing x -> List.length y = List.length x -> (4 <= List.length x)%nat -> (i < List.length x)%nat -> cubic x y (nth i x 0) = nth i y 0.
(* how many zeros are added to a spectrum whose smallest distance of frequencies is dw: one at the new Nyquist frequency and one right above the old
   one if there is space, one at zero and one right below the lowest frequency if there is space *)
Definition zeros_for (room dw : R) : nat := if Rlt_dec 0 room then (if Rlt_dec dw room then 2 else 1)%nat else 0%nat.
Definition zeros_added (sp : spectrum) (new dw : R) : nat := (zeros_for (new - nyquist sp)%R dw + zeros_for (nth 0 (args sp) 0)%R dw)%nat.
