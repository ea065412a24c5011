From Coq Require Import String ZifyBool.
From Verif Require Import Base FlagsModel FlagsSpec.
Local Open Scope string_scope.
Local Open Scope list_scope.
Local Open Scope Z_scope.

Lemma plotscale_small f : 0 <= f < 800 ->
  plotscale f = Ok (scale_name (Z.testbit (f / 100) 0) (Z.testbit (f / 100) 1) (Z.testbit (f / 100) 2)).
Proof.
  intros H. unfold plotscale. set (s := f / 100).
  assert (Hs : 0 <= s <= 7).
  { unfold s. pose proof (Z.div_pos f 100). pose proof (Z.div_lt_upper_bound f 100 8). lia. }
  assert (Hc : s = 0 \/ s = 1 \/ s = 2 \/ s = 3 \/ s = 4 \/ s = 5 \/ s = 6 \/ s = 7) by lia.
  clearbody s. repeat (destruct Hc as [->|Hc]; [reflexivity|]). subst. reflexivity.
Qed.

Lemma plotscale_large f : 800 <= f ->
  plotscale f = Ok (scale_name (0 <? digit f 2) (0 <? digit f 3) (0 <? digit f 4)).
Proof.
  intros H. unfold plotscale, digit. change (10 ^ 2) with 100.
  change (10 ^ 3) with (100 * 10). change (10 ^ 4) with (100 * 100).
  rewrite <- !Z.div_div by lia. set (s := f / 100).
  assert (Hs : 8 <= s) by (unfold s; apply Z.div_le_lower_bound; lia).
  replace (s >? 7) with true by lia. cbn zeta.
  rewrite !Z.gtb_ltb.
  destruct (0 <? s mod 10), (0 <? (s / 10) mod 10), (0 <? (s / 100) mod 10); reflexivity.
Qed.

Lemma transform_roundtrip s : 
  In s ["f"; "1-f"; "cumtrapz(f)"; "1-cumtrapz(f)"; "log(f)"; "log(cumtrapz(f))"] ->
  exists f, transform_id2plotflag2 s = Ok f /\ plotflag2transform_id f = Ok s.
Proof.
  intros H. repeat (destruct H as [<-|H]; [eexists; split; [reflexivity|vm_compute; reflexivity]|]). destruct H.
Qed.
Lemma transform_roundtrip_fails s : In s ["log(1-f)"; "log(1-cumtrapz(f))"; "10log10(f)"] ->
  exists f, transform_id2plotflag2 s = Ok f /\ plotflag2transform_id f <> Ok s.
Proof.
  intros H. repeat (destruct H as [<-|H]; [eexists; split; [reflexivity|vm_compute; discriminate]|]). destruct H.
Qed.
Lemma transform_applied s f : In s transform_names -> transform_id2plotflag2 s = Ok f ->
  forall p q, 0 <= p < 10 -> 0 <= q -> applied_transform (q * 100 + f + p) = Ok s.
Proof.
  intros H Hf p q Hp Hq. unfold applied_transform.
  assert (G : forall v, f = v * 10 -> 0 <= v < 10 -> ((q * 100 + f + p) / 10) mod 10 = v).
  { intros v -> Hv. replace (q * 100 + v * 10 + p) with (p + (q * 10 + v) * 10) by lia.
    rewrite Z.div_add by lia. rewrite Z.div_small by lia.
    replace (0 + (q * 10 + v)) with (v + q * 10) by lia. rewrite Z.mod_add by lia. apply Z.mod_small. lia. }
  unfold transform_names in H.
  assert (E : exists v, f = v * 10 /\ 0 <= v < 10 /\ pyget transform_names v = Ok s).
  { repeat (destruct H as [<-|H]; [vm_compute in Hf; injection Hf as <-;
      first [exists 0; split; [reflexivity|split; [lia|reflexivity]]
            |exists 1; split; [reflexivity|split; [lia|reflexivity]]
            |exists 2; split; [reflexivity|split; [lia|reflexivity]]
            |exists 3; split; [reflexivity|split; [lia|reflexivity]]
            |exists 4; split; [reflexivity|split; [lia|reflexivity]]
            |exists 5; split; [reflexivity|split; [lia|reflexivity]]
            |exists 6; split; [reflexivity|split; [lia|reflexivity]]
            |exists 7; split; [reflexivity|split; [lia|reflexivity]]
            |exists 8; split; [reflexivity|split; [lia|reflexivity]]]|]). destruct H. }
  destruct E as [v [E1 [E2 E3]]]. rewrite (G v E1 E2). exact E3.
Qed.
Lemma transform_id_8 : plotflag2transform_id 80 = Err IndexError /\ applied_transform 80 = Ok "10log10(f)".
Proof. split; reflexivity. Qed.

Lemma plottype_ok f : (exists s, plotflag2plottype_1d f = Ok s) <-> f mod 10 <= 5.
Proof.
  unfold plotflag2plottype_1d. pose proof (Z.mod_pos_bound f 10 ltac:(lia)). set (m := f mod 10) in *.
  assert (Hc : m = 0 \/ m = 1 \/ m = 2 \/ m = 3 \/ m = 4 \/ m = 5 \/ m = 6 \/ m = 7 \/ m = 8 \/ m = 9) by lia.
  clearbody m. split.
  - intros [s Hs]. repeat (destruct Hc as [->|Hc]; [try lia; vm_compute in Hs; discriminate|]).
    subst. vm_compute in Hs. discriminate.
  - intros Hm. repeat (destruct Hc as [->|Hc]; [try lia; eexists; reflexivity|]). lia.
Qed.
