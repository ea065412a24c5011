From Coq Require Import Reals List ZArith Lra Lia Bool String Sorting.
From Verif Require Import Base KdeModel ProcModel ProcSpec ProcProofs DiscModel DiscSpec DiscProofs DiscProofs3 SlopesModel SlopesProofs2 SlopesProofs4 SlopesProofs5 ResaModel ResaSpec ResaProofs.
Import ListNotations.
Local Open Scope R_scope.
Set Bullet Behavior "Strict Subproofs".

Lemma nyquist_pos sp : proper sp -> 0 < nyquist sp.
Proof.
  intros [Hn [Hl [I Z0]]]. unfold nyquist. rewrite last_nth. pose proof (increasing_lt (args sp) I 0 (List.length (args sp) - 1)%nat ltac:(lia) ltac:(lia)). lra.
Qed.
Lemma half : 0.5 = 1/2. Proof. lra. Qed.
Lemma const_pos (b : bool) : 0 < (if b then 1/2 else PI).
Proof. destruct b; [lra|apply PI_RGT_0]. Qed.
Lemma INR_pow2 k : INR (2 ^ k) = IZR (2 ^ Z.of_nat k).
Proof. rewrite INR_IZR_INZ. f_equal. rewrite Nat2Z.inj_pow. reflexivity. Qed.
Lemma pow2_nat z : (0 <= z)%Z -> Z.to_nat (2 ^ z) = (2 ^ Z.to_nat z)%nat.
Proof. intros H. apply Nat2Z.inj. rewrite Z2Nat.id by (apply Z.pow_nonneg; lia). rewrite Nat2Z.inj_pow, Z2Nat.id by lia. reflexivity. Qed.
(* the size of the discretisation of a function *)
Lemma size_of_discretisation f tiny new : 0 < tiny -> 0 < new -> exists k, (3 <= k)%nat /\ exists x, discretize f tiny 0 new (5/1000) 5 "linear" = Ok x /\
  exists d, min_diff (fst x) = Ok d /\ pow2_up (ceil (new / d)) = (2 ^ Z.of_nat k)%Z.
Proof.
  intros T N. destruct (linear_method f tiny 0 new (5/1000) 5 "linear" eq_refl N T ltac:(lra) ltac:(lia)) as [K [errs [E [E0 [_ St]]]]].
  exists (K + 2)%nat. split.
  { destruct K as [|K]; [|lia]. exfalso. destruct St as [A|[A|A]]; [cbn in A; lia|rewrite E0 in A; lra|cbn in A; lia]. }
  eexists. split; [exact E|]. assert (P : (1 <= 2 ^ K * Z.to_nat (5 - 1))%nat). { pose proof (Nat.pow_nonzero 2 K ltac:(lia)). change (Z.to_nat (5 - 1)) with 4%nat. lia. }
  eexists. split; [cbn [fst]; apply grid_gap; exact P|]. rewrite Rminus_0_r.
  assert (Q : 0 < INR (2 ^ K * Z.to_nat (5 - 1))) by (apply lt_0_INR; lia).
  replace (new / (new / INR (2 ^ K * Z.to_nat (5 - 1)))) with (INR (2 ^ K * Z.to_nat (5 - 1))) by (field; split; lra).
  replace (2 ^ K * Z.to_nat (5 - 1))%nat with (2 ^ (K + 2))%nat by (rewrite Nat.pow_add_r; reflexivity).
  rewrite INR_pow2. rewrite (ceil_unique _ (2 ^ Z.of_nat (K + 2))%Z) by lra. apply pow2_up_pow. lia.
Qed.
Lemma plan_common cubic tiny sp dt nmin nmax dw : proper sp -> 0 < wanted sp dt -> smallest_gap (args sp) dw ->
  let new := nyquist_of sp (wanted sp dt) in let n := Z.of_nat (List.length (args sp)) in
  exists w' s' r, (exists k, (0 <= k)%Z /\ r = 2 ^ k)%Z /\ (n <= r + 1)%Z /\ (nmin <= r + 1)%Z /\ (new / IZR r <= nyquist sp / IZR (n - 1) \/ (nmax <= r + 1)%Z) /\
   0 < new /\ padded_ok (args sp) (data sp) w' s' new (zeros_added sp new dw) /\
    w' = (if Rlt_dec 0 (nth 0 (args sp) 0) then if Rlt_dec dw (nth 0 (args sp) 0) then [0; nth 0 (args sp) 0 - dw] else [0] else []) ++ args sp ++
         (if Rlt_dec 0 (new - nyquist sp) then if Rlt_dec dw (new - nyquist sp) then [nyquist sp + dw; new] else [new] else []) /\
    s' = repeat 0 (zeros_for (nth 0 (args sp) 0) dw) ++ data sp ++ repeat 0 (zeros_for (new - nyquist sp) dw) /\
   plan cubic tiny sp dt nmin nmax =
    (let* _ := checked 4 w' s' in
     let* x := discretize (cubic w' s') tiny 0 new (5/1000) 5 "linear" in
     let* dwmin := min_diff (fst x) in
     let nfft' := (pow2_up (ceil (new / dwmin)) + 1)%Z in
     Ok (Some (w', s', new, if (r + 1 <? nfft')%Z then nfft' else (r + 1)%Z))).
Proof.
  intros Pr Dt G new n. pose proof (nyquist_pos sp Pr) as Ny. destruct Pr as [Hn [Hl [I Z0]]].
  set (c := if hertz sp then 1/2 else PI). assert (Cp : 0 < c) by apply const_pos.
  assert (Np : 0 < new) by (unfold new, nyquist_of; fold c; apply Rdiv_lt_0_compat; assumption).
  destruct (pow2_up_spec (Z.max (n - 1) (nmin - 1)) ltac:(lia)) as [P1 P2].
  destruct (doublings_spec (c / nyquist sp * IZR (n - 1)) (wanted sp dt) nmax (S (Z.to_nat nmax)) (pow2_up (Z.max (n - 1) (nmin - 1)))) as [r [Er [R1 [R2 [R3 _]]]]]; try lia; [exact P2|].
  destruct (pad_spec (args sp) (data sp) new dw Hn Hl I Z0 G Np) as [w1 [s1 [w' [s' [E1 [E2 [PO [Ew Es]]]]]]]].
  exists w', s', r. split; [exact R2|]. split; [lia|]. split; [lia|]. split.
  { destruct R3 as [A|A]; [left|now right]. assert (Rp : 0 < IZR r) by (apply IZR_lt; lia). assert (Nn : 0 < IZR (n - 1)) by (apply IZR_lt; lia).
    unfold new, nyquist_of. fold c. apply Rmult_le_reg_r with (wanted sp dt * IZR (n - 1)); [now apply Rmult_lt_0_compat|].
    replace (c / wanted sp dt / IZR r * (wanted sp dt * IZR (n - 1))) with (nyquist sp * (c / nyquist sp * IZR (n - 1) / IZR r)) by (field; repeat split; lra).
    replace (nyquist sp / IZR (n - 1) * (wanted sp dt * IZR (n - 1))) with (nyquist sp * wanted sp dt) by (field; lra). apply Rmult_le_compat_l; lra. }
  split; [exact Np|]. split; [exact PO|]. split; [exact Ew|]. split; [exact Es|].
  assert (Ed : min_diff (args sp) = Ok dw) by (destruct (min_diff_spec (args sp) Hn) as [d [E D]]; rewrite E; f_equal; exact (gap_unique _ _ _ D G)).
  unfold plan. rewrite from_end_nth by lia. cbn [bind]. unfold at_. rewrite <- last_nth. fold (nyquist sp).
  replace (if hertz sp then 0.5 else PI) with c by (unfold c; destruct (hertz sp); lra).
  replace (match dt with Some d => d | None => c / nyquist sp end) with (wanted sp dt) by reflexivity. fold n. rewrite Er. cbn [bind].
  replace (c / wanted sp dt) with new by reflexivity.
  assert (S1 : (let* second := (if gtb (new - nyquist sp) 0 then Ok 0 else geti (args sp) 1) in Ok (gtb (new - nyquist sp) 0 || gtb second 0)%bool) = Ok true).
  { destruct (Rle_lt_dec (new - nyquist sp) 0) as [A|A]; [rewrite gtb_false by exact A|rewrite gtb_true by exact A; reflexivity].
    rewrite geti_nth by lia. cbn [bind]. unfold at_. rewrite gtb_true; [reflexivity|]. pose proof (I 0%nat ltac:(lia)). lra. }
  destruct (if gtb (new - nyquist sp) 0 then Ok 0 else geti (args sp) 1) as [second|e]; [|discriminate S1]. cbn [bind] in S1 |- *. injection S1 as S1. rewrite S1. cbn [orb].
  rewrite Ed. cbn [bind]. unfold nyquist. rewrite E1, E2.
  destruct (checked 4 w' s') as [[]|e] eqn:Ch; [|reflexivity]. cbn [bind].
  assert (Wn : w' <> []) by (pose proof (po_len _ _ _ _ _ _ PO); destruct w'; [cbn in *; lia|discriminate]).
  assert (Hh : hd 0 w' = 0) by (pose proof (po_first _ _ _ _ _ _ PO); destruct w'; [contradiction|assumption]).
  assert (W0 : within w' 0 = true). { unfold within. rewrite Hh, (po_last _ _ _ _ _ _ PO), !leb_true; [reflexivity|pose proof (Rmax_r (last (args sp) 0) new); lra|lra]. }
  assert (W1 : within w' new = true). { unfold within. rewrite Hh, (po_last _ _ _ _ _ _ PO), !leb_true; [reflexivity|apply Rmax_r|lra]. }
  rewrite W0, W1. reflexivity.
Qed.
Lemma plan_ok cubic tiny sp dt nmin nmax dw : proper sp -> 0 < tiny -> 0 < wanted sp dt -> smallest_gap (args sp) dw ->
  let new := nyquist_of sp (wanted sp dt) in let n := List.length (args sp) in (4 <= n + zeros_added sp new dw)%nat ->
  exists w' s' k, (3 <= k)%nat /\ (n <= 2 ^ k + 1)%nat /\ (nmin <= 2 ^ Z.of_nat k + 1)%Z /\ (new / INR (2 ^ k) <= nyquist sp / INR (n - 1) \/ (nmax <= 2 ^ Z.of_nat k + 1)%Z) /\
   0 < new /\ padded_ok (args sp) (data sp) w' s' new (zeros_added sp new dw) /\
    w' = (if Rlt_dec 0 (nth 0 (args sp) 0) then if Rlt_dec dw (nth 0 (args sp) 0) then [0; nth 0 (args sp) 0 - dw] else [0] else []) ++ args sp ++
         (if Rlt_dec 0 (new - nyquist sp) then if Rlt_dec dw (new - nyquist sp) then [nyquist sp + dw; new] else [new] else []) /\
    s' = repeat 0 (zeros_for (nth 0 (args sp) 0) dw) ++ data sp ++ repeat 0 (zeros_for (new - nyquist sp) dw) /\
   plan cubic tiny sp dt nmin nmax = Ok (Some (w', s', new, 2 ^ Z.of_nat k + 1)%Z).
Proof.
  intros Pr T Dt G new n N4. destruct (plan_common cubic tiny sp dt nmin nmax dw Pr Dt G) as [w' [s' [r [[kr [Kr Er]] [N1 [N2 [D [Np [PO [Ew [Es E]]]]]]]]]]].
  fold new in Np, PO, D, E, Ew, Es. destruct (size_of_discretisation (cubic w' s') tiny new T Np) as [k [K3 [x [Ex [d [Ed Ek]]]]]].
  assert (Ch : checked 4 w' s' = Ok tt).
  { unfold checked. rewrite (po_lens _ _ _ _ _ _ PO), Nat.eqb_refl. cbn [negb orb]. destruct (Nat.ltb_spec (List.length w') 4) as [A|A]; [|reflexivity]. rewrite (po_len _ _ _ _ _ _ PO) in A. fold n in A. lia. }
  rewrite Ch in E. cbn [bind] in E. rewrite Ex in E. cbn [bind] in E. rewrite Ed in E. cbn [bind] in E. rewrite Ek in E. cbv zeta in E.
  set (m := Nat.max k (Z.to_nat kr)).
  assert (Mk : (2 ^ Z.of_nat m = Z.max (2 ^ Z.of_nat k) r)%Z).
  { unfold m. rewrite Er, Nat2Z.inj_max, Z2Nat.id by lia. destruct (Z.le_gt_cases (Z.of_nat k) kr) as [A|A].
    - rewrite Z.max_r by lia. rewrite Z.max_r; [reflexivity|]. apply Z.pow_le_mono_r; lia.
    - rewrite Z.max_l by lia. rewrite Z.max_l; [reflexivity|]. apply Z.pow_le_mono_r; lia. }
  assert (Mn : Z.of_nat (2 ^ m) = (2 ^ Z.of_nat m)%Z) by (rewrite Nat2Z.inj_pow; reflexivity).
  exists w', s', m. split; [unfold m; lia|]. fold n in N1, D. split; [lia|]. split; [lia|]. split.
  { destruct D as [A|A]; [left|right; lia]. assert (Rp : 0 < IZR r) by (apply IZR_lt; rewrite Er; apply Z.pow_pos_nonneg; lia).
    rewrite INR_pow2. apply Rle_trans with (new / IZR r).
    - unfold Rdiv. apply Rmult_le_compat_l; [lra|]. apply Rinv_le_contravar; [exact Rp|]. apply IZR_le. lia.
    - rewrite INR_IZR_INZ. replace (Z.of_nat (n - 1)) with (Z.of_nat n - 1)%Z; [exact A|]. destruct Pr as [Hn _]. unfold n. lia. }
  split; [exact Np|]. split; [exact PO|]. split; [exact Ew|]. split; [exact Es|]. rewrite E. do 3 f_equal. rewrite Mk. destruct (Z.ltb_spec (r + 1) (2 ^ Z.of_nat k + 1)); lia.
Qed.
Lemma plan_few cubic tiny sp dt nmin nmax dw : proper sp -> 0 < wanted sp dt -> smallest_gap (args sp) dw ->
  (List.length (args sp) + zeros_added sp (nyquist_of sp (wanted sp dt)) dw < 4)%nat -> plan cubic tiny sp dt nmin nmax = Err ValueError.
Proof.
  intros Pr Dt G F. destruct (plan_common cubic tiny sp dt nmin nmax dw Pr Dt G) as [w' [s' [r [_ [_ [_ [_ [_ [PO [_ [_ E]]]]]]]]]]]. rewrite E.
  assert (Ch : checked 4 w' s' = Err ValueError).
  { unfold checked. destruct (Nat.ltb_spec (List.length w') 4) as [A|A]; [now rewrite orb_true_r|]. rewrite (po_len _ _ _ _ _ _ PO) in A. lia. }
  rewrite Ch. reflexivity.
Qed.
