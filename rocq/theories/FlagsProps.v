(* Property theorems C24.  Vocabulary: FlagsSpec.v. *)
From Coq Require Import String.
From Verif Require Import Base FlagsModel FlagsSpec FlagsProofs.
Local Open Scope string_scope.
Local Open Scope list_scope.
Local Open Scope Z_scope.

Theorem c24_plotscale_below_800 : forall f, 0 <= f < 800 ->
  plotscale f = Ok (scale_name (Z.testbit (f / 100) 0) (Z.testbit (f / 100) 1) (Z.testbit (f / 100) 2)).
Proof. exact plotscale_small. Qed.
Print Assumptions c24_plotscale_below_800.

Theorem c24_plotscale_from_800 : forall f, 800 <= f ->
  plotscale f = Ok (scale_name (0 <? digit f 2) (0 <? digit f 3) (0 <? digit f 4)).
Proof. exact plotscale_large. Qed.
Print Assumptions c24_plotscale_from_800.

Theorem c24_transform_applied : forall s f, In s transform_names -> transform_id2plotflag2 s = Ok f ->
  forall p q, 0 <= p < 10 -> 0 <= q -> applied_transform (q * 100 + f + p) = Ok s.
Proof. exact transform_applied. Qed.
Print Assumptions c24_transform_applied.

Theorem c24_roundtrip : forall s,
  In s ["f"; "1-f"; "cumtrapz(f)"; "1-cumtrapz(f)"; "log(f)"; "log(cumtrapz(f))"] ->
  exists f, transform_id2plotflag2 s = Ok f /\ plotflag2transform_id f = Ok s.
Proof. exact transform_roundtrip. Qed.
Print Assumptions c24_roundtrip.

(* the missing comma: three documented transforms do not come back, the last one raises *)
Theorem c24_roundtrip_refuted : forall s, In s ["log(1-f)"; "log(1-cumtrapz(f))"; "10log10(f)"] ->
  exists f, transform_id2plotflag2 s = Ok f /\ plotflag2transform_id f <> Ok s.
Proof. exact transform_roundtrip_fails. Qed.
Print Assumptions c24_roundtrip_refuted.

Theorem c24_id8_refuted : plotflag2transform_id 80 = Err IndexError /\ applied_transform 80 = Ok "10log10(f)".
Proof. exact transform_id_8. Qed.
Print Assumptions c24_id8_refuted.

Theorem c24_plottype_domain : forall f, (exists s, plotflag2plottype_1d f = Ok s) <-> f mod 10 <= 5.
Proof. exact plottype_ok. Qed.
Print Assumptions c24_plottype_domain.

Example c24_case : plotscale 11100 = Ok "xyzlog" /\ plotscale 500 = Ok "xzlog" /\
  plotflag2transform_id 141 = Ok "log(f)".
Proof. repeat split; reflexivity. Qed.
