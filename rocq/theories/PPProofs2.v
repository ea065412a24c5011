From Coq Require Import Reals Lra Lia Sorted.
From Verif Require Import Base PolyModel PolySpec PolyProofs PolyProofs2 PPModel PPSpec PPProofs.
Local Open Scope R_scope.

(* ---- integrate -------------------------------------------------------------------------- *)
Lemma right_value_spec xs c : right_value xs (polyint1 c 0) = peval (polyint1 c 0) xs.
Proof.
  unfold right_value, polyint1. rewrite removelast_last, peval_snoc, Rplus_0_r.
  destruct (map2 Rdiv c (countdown (List.length c))) as [|c0 l]; [cbn; ring|].
  assert (G : forall l v, fold_left (fun vv c => xs * (vv + c)) l v = (v * xs ^ List.length l + peval l xs * xs)).
  { clear. induction l as [|c l IH]; intros v; cbn [fold_left peval List.length pow]; [ring|]. rewrite IH. ring. }
  rewrite G. cbn [peval List.length]. ring.
Qed.
Lemma set_last_polyint c v : set_last (polyint1 c 0) v = polyint1 c v.
Proof. unfold set_last, polyint1. now rewrite removelast_last. Qed.
Lemma peval_polyint_const c v x : peval (polyint1 c v) x = peval (polyint1 c 0) x + v.
Proof. unfold polyint1. rewrite !peval_snoc. ring. Qed.

(* the constants of integration: area to the left of each piece *)
Fixpoint int_cols (acc : R) (bs : list R) (cs : list (list R)) : list (list R) :=
  match bs, cs with
  | b0 :: ((b1 :: _) as bs'), c :: cs' =>
      polyint1 c acc :: int_cols (acc + peval (polyint1 c 0) (b1 - b0)) bs' cs'
  | _, _ => []
  end.
Lemma int_cols_model cs : forall bs acc, List.length bs = S (List.length cs) -> cs <> [] ->
  map2 set_last (map (fun c => polyint1 c 0) cs)
    (acc :: cumsum acc (map2 right_value (rdiff (removelast bs)) (map (fun c => polyint1 c 0) cs))) = int_cols acc bs cs.
Proof.
  induction cs as [|c cs IH]; intros bs acc Hl Hc; [congruence|].
  destruct bs as [|b0 [|b1 bs]]; try (cbn in Hl; lia). destruct cs as [|c' cs].
  - destruct bs; [|cbn in Hl; lia]. cbn [removelast rdiff map map2 int_cols cumsum]. now rewrite set_last_polyint.
  - destruct bs as [|b2 bs]; [cbn in Hl; lia|].
    change (removelast (b0 :: b1 :: b2 :: bs)) with (b0 :: b1 :: removelast (b2 :: bs)).
    change (rdiff (b0 :: b1 :: removelast (b2 :: bs))) with ((b1 - b0) :: rdiff (b1 :: removelast (b2 :: bs))).
    change (b1 :: removelast (b2 :: bs)) with (removelast (b1 :: b2 :: bs)).
    change (int_cols acc (b0 :: b1 :: b2 :: bs) (c :: c' :: cs))
      with (polyint1 c acc :: int_cols (acc + peval (polyint1 c 0) (b1 - b0)) (b1 :: b2 :: bs) (c' :: cs)).
    rewrite <- IH by (discriminate || (cbn in *; lia)).
    change (map (fun c => polyint1 c 0) (c :: c' :: cs)) with (polyint1 c 0 :: map (fun c => polyint1 c 0) (c' :: cs)).
    cbn [map2 cumsum]. rewrite set_last_polyint, right_value_spec. reflexivity.
Qed.
Lemma int_cols_length cs : forall bs acc, List.length bs = S (List.length cs) -> List.length (int_cols acc bs cs) = List.length cs.
Proof.
  induction cs as [|c cs IH]; intros bs acc Hl; destruct bs as [|b0 [|b1 bs]]; try (cbn in Hl; lia); [reflexivity|].
  change (int_cols acc (b0 :: b1 :: bs) (c :: cs))
    with (polyint1 c acc :: int_cols (acc + peval (polyint1 c 0) (b1 - b0)) (b1 :: bs) cs).
  cbn [List.length]. rewrite IH; [reflexivity|cbn in *; lia].
Qed.
Lemma int_cols_hd c cs b0 b1 bs acc : hd [] (int_cols acc (b0 :: b1 :: bs) (c :: cs)) = polyint1 c acc.
Proof. reflexivity. Qed.
Lemma int_cols_joins cs : forall bs acc, List.length bs = S (List.length cs) -> joins bs (int_cols acc bs cs).
Proof.
  induction cs as [|c cs IH]; intros bs acc Hl; destruct bs as [|b0 [|b1 bs]]; try (cbn in Hl; lia); [exact I|].
  destruct cs as [|c' cs].
  - destruct bs; [exact I|cbn in Hl; lia].
  - destruct bs as [|b2 bs]; [cbn in Hl; lia|].
    change (int_cols acc (b0 :: b1 :: b2 :: bs) (c :: c' :: cs))
      with (polyint1 c acc :: int_cols (acc + peval (polyint1 c 0) (b1 - b0)) (b1 :: b2 :: bs) (c' :: cs)).
    specialize (IH (b1 :: b2 :: bs) (acc + peval (polyint1 c 0) (b1 - b0)) ltac:(cbn in *; lia)).
    set (l := int_cols _ _ _) in *.
    assert (E : exists l', l = polyint1 c' (acc + peval (polyint1 c 0) (b1 - b0)) :: l') by (eexists; reflexivity).
    clearbody l. destruct E as [l' ->]. cbn [joins]. split; [|exact IH].
    rewrite polyint1_at0, peval_polyint_const. ring.
Qed.
Lemma int_cols_der cs : forall bs acc, List.length bs = S (List.length cs) -> map polyder1 (int_cols acc bs cs) = cs.
Proof.
  induction cs as [|c cs IH]; intros bs acc Hl; destruct bs as [|b0 [|b1 bs]]; try (cbn in Hl; lia); [reflexivity|].
  change (int_cols acc (b0 :: b1 :: bs) (c :: cs))
    with (polyint1 c acc :: int_cols (acc + peval (polyint1 c 0) (b1 - b0)) (b1 :: bs) cs).
  cbn [map]. rewrite polyder_polyint1, IH; [reflexivity|cbn in *; lia].
Qed.
Lemma int_cols_nonempty cs : forall bs acc, Forall (fun c => c <> []) (int_cols acc bs cs).
Proof.
  induction cs as [|c cs IH]; intros bs acc; destruct bs as [|b0 [|b1 bs]]; try constructor.
  - intros E. apply (f_equal (@List.length R)) in E. rewrite polyint1_length in E. discriminate.
  - apply (IH (b1 :: bs) (acc + peval (polyint1 c 0) (b1 - b0))).
Qed.
Lemma integrate_cols cs bs fl : well_formed cs bs ->
  exists p, pp_new cs bs fl = Ok p /\ pp_integrate p = pp_new (int_cols 0 bs cs) bs fl.
Proof.
  intros W. assert (Hb : bs <> []) by (intros ->; destruct W as [_ [W _]]; cbn in W; lia).
  eexists. rewrite pp_new_ok by exact Hb. split; [reflexivity|].
  unfold pp_integrate. cbn [cols breaks fill]. cbv zeta. f_equal. destruct W as [Hs [Hl [Hc _]]].
  destruct (Nat.ltb_spec 1 (List.length bs - 1)) as [L|L].
  - cbn [cumsum]. rewrite Rplus_0_l. now apply int_cols_model.
  - destruct cs as [|c [|c' cs]]; [congruence| |cbn in Hl; lia].
    destruct bs as [|b0 [|b1 [|]]]; try (cbn in Hl; lia). reflexivity.
Qed.
Lemma integrate_spec cs bs fl : well_formed cs bs ->
  exists p q F, pp_new cs bs fl = Ok p /\ pp_integrate p = Ok q /\
  continuity F /\ F (hd 0 bs) = 0 /\
  (forall x, between_breaks bs x -> pp_call q x = Ok (F x)) /\
  (forall i x, (i < List.length cs)%nat -> in_piece bs i x -> exists d, pp_call p x = Ok d /\ derivable_pt_lim F x d).
Proof.
  intros W. assert (Hb : bs <> []) by (intros ->; destruct W as [_ [W _]]; cbn in W; lia).
  destruct (integrate_cols cs bs fl W) as [p [E1 E2]]. exists p.
  rewrite (pp_new_ok (int_cols 0 bs cs)) in E2 by exact Hb. eexists. exists (pfun bs (int_cols 0 bs cs)).
  split; [exact E1|]. split; [exact E2|].
  assert (Hl : List.length bs = S (List.length cs)) by apply W.
  assert (W' : well_formed (int_cols 0 bs cs) bs).
  { apply (wf_pieces cs); [exact W|now apply int_cols_length|apply int_cols_nonempty]. }
  split; [|split; [|split]].
  - apply pfun_continuous; [apply W'|apply W'|now apply int_cols_joins].
  - rewrite pfun_left by (exact W' || lra). rewrite Rminus_diag_eq by reflexivity.
    destruct W as [_ [_ [Hc _]]]. destruct cs as [|c cs]; [congruence|].
    destruct bs as [|b0 [|b1 bs]]; try (cbn in Hl; lia). rewrite int_cols_hd. apply polyint1_at0.
  - intros x Hx. apply (call_pfun (int_cols 0 bs cs) bs fl); [exact W'|now rewrite pp_new_ok|exact Hx].
  - intros i x Hi Hx. exists (peval (nth i cs []) (x - nth i bs 0)). split.
    + destruct (call_piece cs bs fl i x W Hi) as [p' [E' V]]; [unfold in_piece in Hx; lra|].
      rewrite E1 in E'. injection E' as <-. exact V.
    + rewrite <- (int_cols_der cs bs 0 Hl) at 2. rewrite nth_map_polyder by (now rewrite int_cols_length).
      apply pfun_derivable_inside; [exact W'|now rewrite int_cols_length|exact Hx].
Qed.
(* derivative of the integral gives back the coefficients *)
Lemma derivative_integrate cs bs fl : well_formed cs bs ->
  exists p q, pp_new cs bs fl = Ok p /\ pp_integrate p = Ok q /\ pp_derivative q = Ok p.
Proof.
  intros W. assert (Hb : bs <> []) by (intros ->; destruct W as [_ [W _]]; cbn in W; lia).
  destruct (integrate_cols cs bs fl W) as [p [E1 E2]]. exists p.
  rewrite (pp_new_ok (int_cols 0 bs cs)) in E2 by exact Hb. eexists. split; [exact E1|]. split; [exact E2|].
  unfold pp_derivative. cbn [cols breaks fill]. rewrite int_cols_der by apply W. exact E1.
Qed.

(* ---- linear_extrapolate ----------------------------------------------------------------- *)
Lemma skipn_last2 {A} (l : list A) k : List.length l = (k + 2)%nat -> exists u v, skipn k l = [u; v].
Proof.
  intros H. assert (L : List.length (skipn k l) = 2%nat) by (rewrite skipn_length; lia).
  destruct (skipn k l) as [|u [|v [|]]]; try (cbn in L; lia). now exists u, v.
Qed.
Lemma peval_zeros_app k l x : peval (repeat 0 k ++ l) x = peval l x.
Proof. rewrite peval_app, peval_zeros. ring. Qed.
Lemma peval_split2 l k u v x : List.length l = (k + 2)%nat -> skipn k l = [u; v] ->
  peval l x = peval (firstn k l) x * (x * x) + u * x + v.
Proof.
  intros H E. rewrite <- (firstn_skipn k l) at 1. rewrite E, peval_app. cbn. ring.
Qed.
Lemma dlim_eq f x l l' : l = l' -> derivable_pt_lim f x l -> derivable_pt_lim f x l'.
Proof. now intros ->. Qed.
(* value and derivative at 0 are the last two coefficients *)
Lemma low_coefs l k u v : List.length l = (k + 2)%nat -> skipn k l = [u; v] ->
  peval l 0 = v /\ derivable_pt_lim (peval l) 0 u.
Proof.
  intros H E. split; [rewrite (peval_split2 l k u v 0 H E); ring|].
  apply (derivable_pt_lim_ext (fun x => peval (firstn k l) x * (x * x) + (u * x + v))).
  { intros x. rewrite (peval_split2 l k u v x H E). ring. }
  apply (dlim_eq _ _ ((peval (polyder1 (firstn k l)) 0 * (0 * 0) + peval (firstn k l) 0 * (1 * 0 + 0 * 1)) + (u * 1 + 0))); [ring|].
  apply (derivable_pt_lim_plus (fun x => peval (firstn k l) x * (x * x)) (fun x => u * x + v)).
  - apply (derivable_pt_lim_mult (peval (firstn k l)) (fun x => x * x)); [apply derivable_peval|].
    apply (derivable_pt_lim_mult (fun x => x) (fun x => x)); apply derivable_pt_lim_id.
  - apply (derivable_pt_lim_plus (fun x => u * x) (fun _ => v)); [|apply derivable_pt_lim_const].
    apply (derivable_pt_lim_scal (fun x => x)). apply derivable_pt_lim_id.
Qed.
Lemma firstn_app_len {A} (l l' : list A) : firstn (List.length l) (l ++ l') = l.
Proof. rewrite firstn_app, Nat.sub_diag, firstn_all. cbn. apply app_nil_r. Qed.

Record extrapolation (cs : list (list R)) (bs : list R) (a1 an : list R) : Prop := {
  ex_left : forall x, peval a1 (x - (hd 0 bs + -1)) = peval (skipn (List.length (hd [] cs) - 2) (hd [] cs)) (x - hd 0 bs);
  ex_left_ne : a1 <> [];
  ex_right_ne : an <> [];
  ex_right : exists d, derivable_pt_lim (peval (last cs [])) (last bs 0 - nth (List.length bs - 2) bs 0) d /\
     forall s, peval an s = peval (last cs []) (last bs 0 - nth (List.length bs - 2) bs 0) + d * s }.
Lemma last_in {A} (l : list A) d : l <> [] -> In (last l d) l.
Proof.
  induction l as [|a l IH]; [congruence|]. intros _. destruct l; [now left|]. right. apply IH. discriminate.
Qed.
Lemma extrapolate_model cs bs fl k : well_formed cs bs -> Forall (fun c => List.length c = (k + 3)%nat) cs ->
  exists p a1 an, pp_new cs bs fl = Ok p /\
   pp_linear_extrapolate p = Ok (PP (a1 :: cs ++ [an]) ((hd 0 bs + -1) :: bs ++ [last bs 0 + 1]) 0 None None) /\
   extrapolation cs bs a1 an.
Proof.
  intros W Hk. assert (Hb : bs <> []) by (intros ->; destruct W as [_ [W _]]; cbn in W; lia).
  destruct W as [Hs [Hl [Hc Hf]]].
  assert (Hlen : (2 <= List.length bs)%nat) by (destruct cs; [congruence|cbn in Hl; lia]).
  assert (L0 : List.length (hd [] cs) = (k + 3)%nat) by (destruct cs; [congruence|now inversion Hk]).
  assert (LN : List.length (last cs []) = (k + 3)%nat).
  { rewrite Forall_forall in Hk. apply Hk. now apply last_in. }
  eexists. rewrite pp_new_ok by exact Hb.
  set (dxN := last bs 0 - nth (List.length bs - 2) bs 0).
  destruct (polyreloc_spec (last cs []) (- dxN) 0) as [rn [En [Ln Vn]]]; [intros E; rewrite E in LN; cbn in LN; lia|].
  destruct (polyreloc_spec (skipn (k + 1) (hd [] cs)) (- (hd 0 bs + -1 - hd 0 bs)) 0) as [r1 [E1 [L1 V1]]].
  { intros E. apply (f_equal (@List.length R)) in E. rewrite skipn_length in E. cbn in E. lia. }
  exists (repeat 0 (k + 1) ++ r1), (repeat 0 (k + 1) ++ skipn (k + 1) rn).
  split; [reflexivity|]. split.
  - unfold pp_linear_extrapolate, order. cbn [cols breaks fill lo hi]. rewrite L0.
    replace (k + 3 <=? 2)%nat with false by (symmetry; apply Nat.leb_gt; lia).
    rewrite (geti_ok bs 0 0) by lia. cbn [bind].
    replace (List.length bs <? 2)%nat with false by (symmetry; apply Nat.ltb_ge; lia). cbn [bind].
    replace (k + 3 - 2)%nat with (k + 1)%nat by lia. unfold at_R. fold dxN. rewrite En. cbn [bind].
    replace (nth 0 bs 0) with (hd 0 bs) by (destruct bs; reflexivity). rewrite E1. reflexivity.
  - constructor.
    + intros x. rewrite peval_zeros_app, V1, L0. replace (k + 3 - 2)%nat with (k + 1)%nat by lia.
      rewrite Rplus_0_r. f_equal. ring.
    + intros E. apply (f_equal (@List.length R)) in E. rewrite app_length, repeat_length in E. cbn in E. lia.
    + intros E. apply (f_equal (@List.length R)) in E. rewrite app_length, repeat_length in E. cbn in E. lia.
    + assert (Lrn : List.length rn = (k + 1 + 2)%nat) by lia.
      destruct (skipn_last2 rn (k + 1) Lrn) as [u [v Euv]]. destruct (low_coefs rn (k + 1) u v Lrn Euv) as [Hv Hu].
      exists u. split.
      * fold dxN. rewrite <- (Rplus_0_l dxN).
        apply (derivable_pt_lim_ext (fun t => peval rn (t - dxN))).
        { intros t. rewrite Vn, Rplus_0_r. f_equal. ring. }
        apply (dlim_eq _ _ (u * (1 - 0))); [ring|].
        apply (derivable_pt_lim_comp (fun x => x - dxN) (peval rn)).
        -- apply derivable_pt_lim_minus; [apply derivable_pt_lim_id|apply derivable_pt_lim_const].
        -- replace (0 + dxN - dxN) with 0 by ring. exact Hu.
      * intros s. fold dxN. rewrite peval_zeros_app, Euv. rewrite Vn in Hv. rewrite Rplus_0_r in Hv.
        replace (0 - - dxN) with dxN in Hv by ring. rewrite Hv. cbn. ring.
Qed.
Lemma sorted_snoc l b : StronglySorted Rlt l -> Forall (fun a => a < b) l -> StronglySorted Rlt (l ++ [b]).
Proof.
  induction 1 as [|a l H IH F]; intros G; [repeat constructor|]. inversion G; subst. cbn. constructor; [now apply IH|].
  apply Forall_app. split; [exact F|repeat constructor; assumption].
Qed.
Lemma new_breaks_sorted bs : StronglySorted Rlt bs -> bs <> [] -> StronglySorted Rlt ((hd 0 bs + -1) :: bs ++ [last bs 0 + 1]).
Proof.
  intros H Hb. constructor.
  - apply sorted_snoc; [exact H|]. apply Forall_forall. intros a Ha. pose proof (sorted_le_last bs H a Ha). lra.
  - apply Forall_app. split.
    + destruct bs as [|b bs]; [congruence|]. cbn [hd]. inversion H as [|? ? ? F]; subst. constructor; [lra|].
      eapply Forall_impl; [|exact F]. cbv beta. intros. lra.
    + repeat constructor. assert (hd 0 bs <= last bs 0); [|lra]. apply sorted_le_last; [exact H|]. destruct bs; [congruence|now left].
Qed.
Lemma new_wf cs bs a1 an : well_formed cs bs -> a1 <> [] -> an <> [] ->
  well_formed (a1 :: cs ++ [an]) ((hd 0 bs + -1) :: bs ++ [last bs 0 + 1]).
Proof.
  intros [Hs [Hl [Hc Hf]]] H1 H2. split; [|split; [|split]].
  - apply new_breaks_sorted; [exact Hs|]. intros ->. cbn in Hl. lia.
  - cbn [List.length]. rewrite !app_length. cbn [List.length]. lia.
  - discriminate.
  - constructor; [exact H1|]. apply Forall_app. split; [exact Hf|repeat constructor; exact H2].
Qed.
(* pfun of the extended list *)
Lemma pfun_app bs cs an b x : cs <> [] -> List.length bs = S (List.length cs) -> StronglySorted Rlt bs ->
  pfun (bs ++ [b]) (cs ++ [an]) x = if Rle_dec x (last bs 0) then pfun bs cs x else peval an (x - last bs 0).
Proof.
  revert bs. induction cs as [|c cs IH]; intros bs Hc Hl Hs; [congruence|].
  destruct bs as [|b0 [|b1 bs]]; try (cbn in Hl; lia). destruct cs as [|c' cs].
  - destruct bs; [|cbn in Hl; lia]. reflexivity.
  - destruct bs as [|b2 bs]; [cbn in Hl; lia|].
    change ((b0 :: b1 :: b2 :: bs) ++ [b]) with (b0 :: b1 :: (b2 :: bs) ++ [b]).
    change ((c :: c' :: cs) ++ [an]) with (c :: c' :: cs ++ [an]). rewrite !pfun_cons.
    specialize (IH (b1 :: b2 :: bs) ltac:(discriminate) ltac:(cbn in *; lia) (sorted_tail Hs)).
    change ((b1 :: b2 :: bs) ++ [b]) with (b1 :: (b2 :: bs) ++ [b]) in IH.
    change ((c' :: cs) ++ [an]) with (c' :: cs ++ [an]) in IH. rewrite IH. clear IH.
    change (last (b0 :: b1 :: b2 :: bs) 0) with (last (b1 :: b2 :: bs) 0).
    pose proof (sorted_le_last _ (sorted_tail Hs) b1 (or_introl eq_refl)) as Hle.
    destruct (Rle_dec x b1); [|reflexivity].
    destruct (Rle_dec x (last (b1 :: b2 :: bs) 0)); [reflexivity|lra].
Qed.
Lemma pfun_extended cs bs a1 an b x : well_formed cs bs -> pfun ((hd 0 bs + -1) :: bs ++ [b]) (a1 :: cs ++ [an]) x
  = if Rle_dec x (hd 0 bs) then peval a1 (x - (hd 0 bs + -1)) else
    if Rle_dec x (last bs 0) then pfun bs cs x else peval an (x - last bs 0).
Proof.
  intros [Hs [Hl [Hc Hf]]]. destruct cs as [|c cs]; [congruence|]. destruct bs as [|b0 bs]; [cbn in Hl; lia|].
  change ((b0 :: bs) ++ [b]) with (b0 :: bs ++ [b]). change ((c :: cs) ++ [an]) with (c :: cs ++ [an]).
  rewrite pfun_cons. cbn [hd]. destruct (Rle_dec x b0); [reflexivity|].
  apply (pfun_app (b0 :: bs) (c :: cs) an b x); auto; discriminate.
Qed.
Lemma extrapolate_spec cs bs fl k : well_formed cs bs -> Forall (fun c => List.length c = (k + 3)%nat) cs ->
  exists p q d0 dN, pp_new cs bs fl = Ok p /\ pp_linear_extrapolate p = Ok q /\
  derivable_pt_lim (peval (hd [] cs)) 0 d0 /\
  derivable_pt_lim (peval (last cs [])) (last bs 0 - nth (List.length bs - 2) bs 0) dN /\
  forall x, pp_call q x =
    if Rle_dec x (hd 0 bs) then Ok (peval (hd [] cs) 0 + d0 * (x - hd 0 bs))
    else if Rle_dec x (last bs 0) then pp_call p x
    else Ok (peval (last cs []) (last bs 0 - nth (List.length bs - 2) bs 0) + dN * (x - last bs 0)).
Proof.
  intros W Hk. destruct (extrapolate_model cs bs fl k W Hk) as [p [a1 [an [E1 [E2 X]]]]].
  destruct X as [Xl Xl0 Xr0 [dN [XdN Xr]]].
  assert (L0 : List.length (hd [] cs) = (k + 1 + 2)%nat).
  { destruct W as [_ [_ [Hc _]]]. destruct cs; [congruence|]. inversion Hk; subst. cbn [hd]. lia. }
  destruct (skipn_last2 (hd [] cs) (k + 1) L0) as [u [v Euv]]. destruct (low_coefs _ _ u v L0 Euv) as [Hv Hu].
  exists p. eexists. exists u, dN. split; [exact E1|]. split; [exact E2|]. split; [exact Hu|]. split; [exact XdN|].
  intros x. rewrite (call_unbounded _ _ _ x (new_wf cs bs a1 an W Xl0 Xr0)).
  rewrite (pfun_extended cs bs a1 an _ x W). destruct (Rle_dec x (hd 0 bs)) as [G|G].
  - f_equal. rewrite Xl. replace (List.length (hd [] cs) - 2)%nat with (k + 1)%nat by lia. rewrite Euv, Hv. cbn. ring.
  - destruct (Rle_dec x (last bs 0)) as [G'|G'].
    + symmetry. apply (call_pfun cs bs fl); [exact W|exact E1|split; lra].
    + f_equal. apply Xr.
Qed.
Lemma extrapolate_low_order cs bs fl : well_formed cs bs -> Forall (fun c => List.length c <= 2)%nat cs ->
  exists p, pp_new cs bs fl = Ok p /\ pp_linear_extrapolate p = Ok p /\
  forall x, ~ between_breaks bs x -> pp_call p x = Ok fl.
Proof.
  intros W Hk. assert (Hb : bs <> []) by (intros ->; destruct W as [_ [W _]]; cbn in W; lia).
  eexists. pose proof (pp_new_ok cs bs fl Hb) as E. split; [exact E|]. split.
  - unfold pp_linear_extrapolate, order. cbn [cols].
    replace (List.length (hd [] cs) <=? 2)%nat with true; [reflexivity|]. symmetry. apply Nat.leb_le.
    destruct W as [_ [_ [Hc _]]]. destruct cs; [congruence|]. now inversion Hk.
  - intros x Hx. exact (call_outside cs bs fl _ x E Hx).
Qed.
(* the derivative of an extrapolated piecewise polynomial does not extrapolate *)
Lemma extrapolated_derivative cs bs fl k : well_formed cs bs -> Forall (fun c => List.length c = (k + 3)%nat) cs ->
  exists p q q', pp_new cs bs fl = Ok p /\ pp_linear_extrapolate p = Ok q /\ pp_derivative q = Ok q' /\
  forall x, last bs 0 + 1 < x -> pp_call q' x = Ok 0.
Proof.
  intros W Hk. destruct (extrapolate_model cs bs fl k W Hk) as [p [a1 [an [E1 [E2 X]]]]].
  exists p. eexists. eexists. split; [exact E1|]. split; [exact E2|]. split; [reflexivity|].
  intros x Hx. apply (call_outside (map polyder1 (a1 :: cs ++ [an])) ((hd 0 bs + -1) :: bs ++ [last bs 0 + 1]) 0); [reflexivity|].
  intros [_ B]. change ((hd 0 bs + -1) :: bs ++ [last bs 0 + 1]) with (((hd 0 bs + -1) :: bs) ++ [last bs 0 + 1]) in B.
  rewrite last_last in B. lra.
Qed.

(* ---- findings ------------------------------------------------------------------------- *)
Lemma step_at_break : exists p, pp_new [[0]; [1]] [0; 1; 2] 0 = Ok p /\ pp_call p 1 = Ok 0.
Proof.
  eexists. split; [reflexivity|]. unfold pp_call, pp_call_as, inside, pp_index. cbn [lo hi breaks cols fill last removelast count_below].
  destruct (Rle_dec 0 1); [|lra]. destruct (Rle_dec 1 2); [|lra]. destruct (Rlt_dec 0 1); [|lra]. destruct (Rlt_dec 1 1); [lra|].
  reflexivity.
Qed.
Lemma integer_points_wrong : exists p, pp_new [[1/2; 0]] [0; 2] 0 = Ok p /\ pp_call p 1 = Ok (1/2) /\ pp_call_int p 1 = Ok 0.
Proof.
  eexists. split; [reflexivity|]. unfold pp_call, pp_call_int, pp_call_as, inside, pp_index. cbn [lo hi breaks cols fill last removelast count_below].
  destruct (Rle_dec 0 1); [|lra]. destruct (Rle_dec 1 2); [|lra]. destruct (Rlt_dec 0 1); [|lra].
  cbn [andb Nat.add Nat.sub geti nth_error bind horner_col fold_left]. split; f_equal; [field|].
  replace ((1 - 0) * (1 / 2) + 0) with (1/2) by field. unfold trunc. destruct (Rle_dec 0 (1/2)); [|lra].
  assert (Int_part (1 / 2) = 0)%Z as ->; [|reflexivity].
  unfold Int_part. assert (1 = up (1 / 2))%Z; [|lia]. apply tech_up; lra.
Qed.
