From Coq Require Import Reals Lra Lia Sorted.
From Verif Require Import Base PolyModel PolySpec PolyProofs PolyProofs2 PPModel PPSpec.
Local Open Scope R_scope.

(* ---- the function described by breaks and columns, extended to all of R ---------------- *)
Fixpoint pfun (bs : list R) (cs : list (list R)) (x : R) : R :=
  match cs with
  | [] => 0
  | [c] => peval c (x - hd 0 bs)
  | c :: cs' => if Rle_dec x (hd 0 (tl bs)) then peval c (x - hd 0 bs) else pfun (tl bs) cs' x
  end.
Lemma pfun_cons b0 b1 bs c c' cs x : pfun (b0 :: b1 :: bs) (c :: c' :: cs) x
  = if Rle_dec x b1 then peval c (x - b0) else pfun (b1 :: bs) (c' :: cs) x.
Proof. reflexivity. Qed.

Lemma horner_col_spec c dx : c <> [] -> horner_col c dx = Ok (peval c dx).
Proof.
  destruct c as [|c0 c']; [congruence|]. intros _. cbn [horner_col]. f_equal.
  assert (G : forall l v, fold_left (fun v ci => dx * v + ci) l v = v * dx ^ List.length l + peval l dx).
  { clear. induction l as [|c l IH]; intros v; cbn [fold_left peval List.length pow]; [ring|]. rewrite IH. ring. }
  rewrite G. reflexivity.
Qed.

Lemma sorted_head_lt b0 b1 bs : StronglySorted Rlt (b0 :: b1 :: bs) -> b0 < b1.
Proof. intros H. inversion H as [|? ? ? F]; subst. inversion F; subst. assumption. Qed.
Lemma sorted_tail {b0 bs} : StronglySorted Rlt (b0 :: bs) -> StronglySorted Rlt bs.
Proof. intros H. now inversion H. Qed.
Lemma count_below_0 bs x : Forall (fun b => x <= b) bs -> count_below bs x = 0%nat.
Proof.
  induction 1 as [|b bs H _ IH]; [reflexivity|]. cbn. destruct (Rlt_dec b x); [lra|]. rewrite IH. reflexivity.
Qed.
Lemma Forall_removelast {A} (P : A -> Prop) l : Forall P l -> Forall P (removelast l).
Proof.
  induction l as [|a l IH]; [constructor|]. intros H. inversion H; subst. destruct l; [constructor|].
  change (removelast (a :: a0 :: l)) with (a :: removelast (a0 :: l)). constructor; auto.
Qed.
Lemma pp_index_step b0 b1 bs x : StronglySorted Rlt (b0 :: b1 :: bs) -> bs <> [] ->
  pp_index (b0 :: b1 :: bs) x = if Rle_dec x b1 then 0%nat else S (pp_index (b1 :: bs) x).
Proof.
  intros H Hne. unfold pp_index. change (removelast (b0 :: b1 :: bs)) with (b0 :: removelast (b1 :: bs)).
  cbn [count_below]. pose proof (sorted_head_lt _ _ _ H) as H01. destruct (Rle_dec x b1) as [L|L].
  - rewrite count_below_0.
    + destruct (Rlt_dec b0 x); reflexivity.
    + apply Forall_removelast. apply sorted_tail in H. inversion H as [|? ? ? F]; subst. constructor; [lra|].
      eapply Forall_impl; [|exact F]. cbv beta. intros. lra.
  - destruct (Rlt_dec b0 x); [|lra]. destruct bs as [|b2 bs]; [congruence|].
    change (removelast (b1 :: b2 :: bs)) with (b1 :: removelast (b2 :: bs)). cbn [count_below].
    destruct (Rlt_dec b1 x); [|lra]. lia.
Qed.
Lemma eval_pfun bs cs x : well_formed cs bs ->
  (let i := pp_index bs x in
   let* b := geti bs i in let* c := geti cs i in horner_col c (x - b)) = Ok (pfun bs cs x).
Proof.
  intros [Hs [Hl [Hc Hf]]]. cbv zeta. revert bs Hs Hl. induction cs as [|c cs IH]; intros bs Hs Hl; [congruence|].
  destruct bs as [|b0 [|b1 bs]]; try (cbn in Hl; lia).
  destruct cs as [|c' cs].
  - destruct bs; [|cbn in Hl; lia].
    assert (E : pp_index [b0; b1] x = 0%nat) by (unfold pp_index; cbn; destruct (Rlt_dec b0 x); reflexivity).
    rewrite E. cbn [geti nth_error bind]. inversion Hf; subst. now rewrite horner_col_spec.
  - destruct bs as [|b2 bs]; [cbn in Hl; lia|].
    rewrite pp_index_step by (assumption || discriminate). rewrite pfun_cons.
    inversion Hf; subst. destruct (Rle_dec x b1) as [L|L].
    + cbn [geti nth_error bind]. now rewrite horner_col_spec.
    + cbn [geti nth_error]. unfold geti in *. cbn [nth_error].
      apply IH; auto; [discriminate|now apply sorted_tail in Hs].
Qed.
Lemma pp_new_ok cs bs fl : bs <> [] -> pp_new cs bs fl = Ok (PP cs bs fl (Some (hd 0 bs)) (Some (last bs 0))).
Proof. destruct bs; [congruence|reflexivity]. Qed.
Lemma call_pfun cs bs fl p x : well_formed cs bs -> pp_new cs bs fl = Ok p -> between_breaks bs x ->
  pp_call p x = Ok (pfun bs cs x).
Proof.
  intros W E B. rewrite pp_new_ok in E.
  2:{ intros ->. destruct W as [_ [W _]]. cbn in W. lia. }
  injection E as <-. unfold pp_call, pp_call_as, inside. cbn [lo hi breaks cols fill].
  destruct B as [B1 B2]. destruct (Rle_dec (hd 0 bs) x); [|lra]. destruct (Rle_dec x (last bs 0)); [|lra]. cbn [andb].
  pose proof (eval_pfun bs cs x W) as G. cbv zeta in *.
  destruct (geti bs (pp_index bs x)) as [b|]; cbn [bind] in *; [|exact G].
  destruct (geti cs (pp_index bs x)) as [c|]; cbn [bind] in *; [|exact G].
  destruct (horner_col c (x - b)); cbn [bind] in *; exact G.
Qed.
Lemma call_unbounded cs bs fl x : well_formed cs bs -> pp_call (PP cs bs fl None None) x = Ok (pfun bs cs x).
Proof.
  intros W. unfold pp_call, pp_call_as, inside. cbn [lo hi breaks cols fill andb].
  pose proof (eval_pfun bs cs x W) as G. cbv zeta in *.
  destruct (geti bs (pp_index bs x)) as [b|]; cbn [bind] in *; [|exact G].
  destruct (geti cs (pp_index bs x)) as [c|]; cbn [bind] in *; [|exact G].
  destruct (horner_col c (x - b)); cbn [bind] in *; exact G.
Qed.
Lemma call_outside cs bs fl p x : pp_new cs bs fl = Ok p -> ~ between_breaks bs x -> pp_call p x = Ok fl.
Proof.
  intros E B. destruct bs as [|b0 bs]; [discriminate|]. cbn in E. injection E as <-.
  unfold pp_call, pp_call_as, inside, between_breaks in *. cbn [lo hi fill hd] in *.
  change (match bs with [] => b0 | _ :: _ => last bs 0 end) with (last (b0 :: bs) 0) in *.
  destruct (Rle_dec b0 x); [|reflexivity]. destruct (Rle_dec x (last (b0 :: bs) 0)); [|reflexivity].
  exfalso. apply B. split; assumption.
Qed.

(* ---- which piece ----------------------------------------------------------------------- *)
Lemma pfun_piece cs : forall bs i x, well_formed cs bs -> (i < List.length cs)%nat ->
  nth i bs 0 < x <= nth (S i) bs 0 -> pfun bs cs x = peval (nth i cs []) (x - nth i bs 0).
Proof.
  induction cs as [|c cs IH]; intros bs i x W Hi Hx; [cbn in Hi; lia|].
  destruct W as [Hs [Hl [Hc Hf]]]. destruct bs as [|b0 [|b1 bs]]; try (cbn in Hl; lia).
  destruct cs as [|c' cs].
  - destruct i; [|cbn in Hi; lia]. reflexivity.
  - rewrite pfun_cons. destruct i as [|i].
    + cbn [nth] in *. destruct (Rle_dec x b1); [reflexivity|lra].
    + destruct (Rle_dec x b1) as [L|L].
      * exfalso. apply sorted_tail in Hs. destruct i as [|i]; [cbn in Hx; lra|].
        inversion Hs as [|? ? ? F]; subst. rewrite Forall_forall in F.
        assert (G : b1 < nth i bs 0) by (apply F, nth_In; cbn in *; lia). cbn [nth] in Hx. lra.
      * inversion Hf; subst.
        assert (W' : well_formed (c' :: cs) (b1 :: bs)).
        { split; [now apply sorted_tail in Hs|]. split; [cbn in *; lia|]. split; [discriminate|assumption]. }
        rewrite (IH _ i x W'); [reflexivity|cbn in *; lia|exact Hx].
Qed.
Lemma pfun_left cs bs x : well_formed cs bs -> x <= hd 0 bs -> pfun bs cs x = peval (hd [] cs) (x - hd 0 bs).
Proof.
  intros [Hs [Hl [Hc Hf]]] Hx. destruct cs as [|c cs]; [congruence|].
  destruct bs as [|b0 [|b1 bs]]; try (cbn in Hl; lia). destruct cs as [|c' cs]; [reflexivity|].
  rewrite pfun_cons. apply sorted_head_lt in Hs. cbn [hd] in *. destruct (Rle_dec x b1); [reflexivity|lra].
Qed.
Lemma sorted_le_last bs : StronglySorted Rlt bs -> forall b, In b bs -> b <= last bs 0.
Proof.
  induction 1 as [|b bs H IH F]; intros a Ha; [contradiction|].
  destruct bs as [|b1 bs].
  - destruct Ha as [->|[]]. cbn. lra.
  - change (last (b :: b1 :: bs) 0) with (last (b1 :: bs) 0). destruct Ha as [<-|Ha]; [|now apply IH].
    rewrite Forall_forall in F. specialize (F b1 (or_introl eq_refl)). specialize (IH b1 (or_introl eq_refl)). lra.
Qed.
Lemma in_piece_between cs bs i x : well_formed cs bs -> (i < List.length cs)%nat ->
  nth i bs 0 <= x <= nth (S i) bs 0 -> between_breaks bs x.
Proof.
  intros [Hs [Hl _]] Hi Hx. split.
  - destruct bs as [|b0 bs]; [cbn in Hl; lia|]. cbn [hd]. destruct i as [|i]; [cbn in Hx; lra|].
    inversion Hs as [|? ? ? F]; subst. rewrite Forall_forall in F.
    assert (b0 < nth i bs 0) by (apply F, nth_In; cbn in *; lia). cbn [nth] in Hx. lra.
  - apply Rle_trans with (1 := proj2 Hx). apply sorted_le_last; [exact Hs|]. apply nth_In. lia.
Qed.

Lemma call_piece cs bs fl i x : well_formed cs bs -> (i < List.length cs)%nat -> nth i bs 0 < x <= nth (S i) bs 0 ->
  exists p, pp_new cs bs fl = Ok p /\ pp_call p x = Ok (peval (nth i cs []) (x - nth i bs 0)).
Proof.
  intros W Hi Hx. eexists. rewrite pp_new_ok by (intros ->; destruct W as [_ [W _]]; cbn in W; lia).
  split; [reflexivity|]. rewrite (call_pfun cs bs fl _ x W).
  - f_equal. now apply pfun_piece.
  - rewrite pp_new_ok; [reflexivity|]. intros ->; destruct W as [_ [W _]]; cbn in W; lia.
  - apply (in_piece_between cs bs i x W Hi). lra.
Qed.
Lemma wf_hd_last cs bs : well_formed cs bs -> hd 0 bs <= last bs 0.
Proof.
  intros [Hs [Hl _]]. apply sorted_le_last; [exact Hs|]. destruct bs; [cbn in Hl; lia|now left].
Qed.
Lemma call_first cs bs fl : well_formed cs bs ->
  exists p, pp_new cs bs fl = Ok p /\ pp_call p (hd 0 bs) = Ok (peval (hd [] cs) 0).
Proof.
  intros W. eexists. rewrite pp_new_ok by (intros ->; destruct W as [_ [W _]]; cbn in W; lia).
  split; [reflexivity|]. rewrite (call_pfun cs bs fl _ _ W).
  - f_equal. rewrite pfun_left by (auto; lra). f_equal. ring.
  - rewrite pp_new_ok; [reflexivity|]. intros ->; destruct W as [_ [W _]]; cbn in W; lia.
  - pose proof (wf_hd_last cs bs W). split; lra.
Qed.

(* ---- gluing ---------------------------------------------------------------------------- *)
Definition glue (b : R) (f g : R -> R) (x : R) : R := if Rle_dec x b then f x else g x.
Lemma glue_continuous b f g : continuity f -> continuity g -> f b = g b -> continuity (glue b f g).
Proof.
  intros Cf Cg E x. intros eps He.
  destruct (Cf x eps He) as [d1 [D1 H1]]. destruct (Cg x eps He) as [d2 [D2 H2]].
  assert (K1 : forall y, Rabs (y - x) < d1 -> Rabs (f y - f x) < eps).
  { intros y Hy. destruct (Req_dec x y) as [->|N]; [rewrite Rminus_diag_eq, Rabs_R0 by reflexivity; lra|].
    apply (H1 y). split; [split; [exact I|exact N]|exact Hy]. }
  assert (K2 : forall y, Rabs (y - x) < d2 -> Rabs (g y - g x) < eps).
  { intros y Hy. destruct (Req_dec x y) as [->|N]; [rewrite Rminus_diag_eq, Rabs_R0 by reflexivity; lra|].
    apply (H2 y). split; [split; [exact I|exact N]|exact Hy]. }
  destruct (Rtotal_order x b) as [L|[L|L]].
  - exists (Rmin d1 (b - x)). split; [apply Rmin_pos; lra|]. intros y [_ Hy]. unfold dist in *. cbn in *. unfold R_dist in *.
    pose proof (Rmin_l d1 (b - x)). pose proof (Rmin_r d1 (b - x)). unfold glue.
    assert (y <= b) by (apply Rabs_def2 in Hy; lra).
    destruct (Rle_dec y b); [|lra]. destruct (Rle_dec x b); [|lra]. apply K1. lra.
  - exists (Rmin d1 d2). split; [apply Rmin_pos; lra|]. intros y [_ Hy]. unfold dist in *. cbn in *. unfold R_dist in *.
    pose proof (Rmin_l d1 d2). pose proof (Rmin_r d1 d2). unfold glue.
    destruct (Rle_dec x b); [|lra]. subst x. destruct (Rle_dec y b); [apply K1; lra|]. rewrite E. apply K2. lra.
  - exists (Rmin d2 (x - b)). split; [apply Rmin_pos; lra|]. intros y [_ Hy]. unfold dist in *. cbn in *. unfold R_dist in *.
    pose proof (Rmin_l d2 (x - b)). pose proof (Rmin_r d2 (x - b)). unfold glue.
    assert (b < y) by (apply Rabs_def2 in Hy; lra).
    destruct (Rle_dec y b); [lra|]. destruct (Rle_dec x b); [lra|]. apply K2. lra.
Qed.
Lemma glue_derivable b f g f' g' : (forall x, derivable_pt_lim f x (f' x)) -> (forall x, derivable_pt_lim g x (g' x)) ->
  f b = g b -> forall x, (x = b -> f' b = g' b) -> derivable_pt_lim (glue b f g) x (glue b f' g' x).
Proof.
  intros Df Dg E x E'. intros eps He.
  destruct (Df x eps He) as [[d1 D1] H1]. destruct (Dg x eps He) as [[d2 D2] H2]. cbn [pos] in *.
  destruct (Rtotal_order x b) as [L|[L|L]].
  - assert (P : 0 < Rmin d1 (b - x)) by (apply Rmin_pos; lra). exists (mkposreal _ P). intros h Hh Hd. cbn [pos] in Hd.
    pose proof (Rmin_l d1 (b - x)). pose proof (Rmin_r d1 (b - x)). unfold glue.
    assert (x + h <= b) by (apply Rabs_def2 in Hd; lra).
    destruct (Rle_dec (x + h) b); [|lra]. destruct (Rle_dec x b); [|lra]. apply H1; [exact Hh|lra].
  - subst x. specialize (E' eq_refl).
    assert (P : 0 < Rmin d1 d2) by (apply Rmin_pos; lra). exists (mkposreal _ P). intros h Hh Hd. cbn [pos] in Hd.
    pose proof (Rmin_l d1 d2). pose proof (Rmin_r d1 d2). unfold glue.
    destruct (Rle_dec b b); [|lra]. destruct (Rle_dec (b + h) b); [apply H1; [exact Hh|lra]|].
    rewrite E, E'. apply H2; [exact Hh|lra].
  - assert (P : 0 < Rmin d2 (x - b)) by (apply Rmin_pos; lra). exists (mkposreal _ P). intros h Hh Hd. cbn [pos] in Hd.
    pose proof (Rmin_l d2 (x - b)). pose proof (Rmin_r d2 (x - b)). unfold glue.
    assert (b < x + h) by (apply Rabs_def2 in Hd; lra).
    destruct (Rle_dec (x + h) b); [lra|]. destruct (Rle_dec x b); [lra|]. apply H2; [exact Hh|lra].
Qed.

(* neighbouring pieces agree at their common break *)
Fixpoint joins (bs : list R) (cs : list (list R)) : Prop :=
  match bs, cs with
  | b0 :: ((b1 :: _) as bs'), c :: ((c' :: _) as cs') => peval c (b1 - b0) = peval c' 0 /\ joins bs' cs'
  | _, _ => True
  end.
Lemma continuity_ext (f g : R -> R) : (forall x, f x = g x) -> continuity f -> continuity g.
Proof.
  intros E C x eps He. destruct (C x eps He) as [d [D H]]. exists d. split; [exact D|].
  intros y Hy. rewrite <- !E. now apply H.
Qed.
Lemma shifted_derivable c b x : derivable_pt_lim (fun x => peval c (x - b)) x (peval (polyder1 c) (x - b)).
Proof.
  replace (peval (polyder1 c) (x - b)) with (peval (polyder1 c) (x - b) * (1 - 0)) by ring.
  apply (derivable_pt_lim_comp (fun x => x - b) (peval c)).
  - apply derivable_pt_lim_minus; [apply derivable_pt_lim_id|apply derivable_pt_lim_const].
  - apply derivable_peval.
Qed.
Lemma shifted_continuous c b : continuity (fun x => peval c (x - b)).
Proof. intros x. apply derivable_continuous_pt. eexists. apply shifted_derivable. Qed.
Lemma pfun_at_first b0 b1 bs c cs : StronglySorted Rlt (b0 :: b1 :: bs) -> pfun (b0 :: b1 :: bs) (c :: cs) b0 = peval c 0.
Proof.
  intros H. apply sorted_head_lt in H. destruct cs as [|c' cs].
  - cbn [pfun hd]. f_equal. ring.
  - rewrite pfun_cons. destruct (Rle_dec b0 b1); [f_equal; ring|lra].
Qed.
Lemma pfun_continuous cs : forall bs, StronglySorted Rlt bs -> List.length bs = S (List.length cs) -> joins bs cs ->
  continuity (pfun bs cs).
Proof.
  induction cs as [|c cs IH]; intros bs Hs Hl Hj.
  - intros x. apply continuity_const. intros a b. reflexivity.
  - destruct bs as [|b0 [|b1 bs]]; try (cbn in Hl; lia). destruct cs as [|c' cs].
    + apply (shifted_continuous c b0).
    + destruct bs as [|b2 bs]; [cbn in Hl; lia|]. destruct Hj as [J Hj].
      apply (continuity_ext (glue b1 (fun x => peval c (x - b0)) (pfun (b1 :: b2 :: bs) (c' :: cs)))); [reflexivity|].
      pose proof (sorted_tail Hs) as Hs'. apply glue_continuous.
      * apply shifted_continuous.
      * apply IH; [exact Hs'|cbn in *; lia|exact Hj].
      * rewrite pfun_at_first by exact Hs'. exact J.
Qed.
Lemma pfun_derivable cs : forall bs, StronglySorted Rlt bs -> List.length bs = S (List.length cs) -> joins bs cs ->
  joins bs (map polyder1 cs) -> forall x, derivable_pt_lim (pfun bs cs) x (pfun bs (map polyder1 cs) x).
Proof.
  induction cs as [|c cs IH]; intros bs Hs Hl Hj Hj' x.
  - apply (derivable_pt_lim_ext (fun _ => 0)); [reflexivity|]. apply derivable_pt_lim_const.
  - destruct bs as [|b0 [|b1 bs]]; try (cbn in Hl; lia). destruct cs as [|c' cs].
    + apply (shifted_derivable c b0).
    + destruct bs as [|b2 bs]; [cbn in Hl; lia|]. destruct Hj as [J Hj]. cbn [map] in Hj'. destruct Hj' as [J' Hj'].
      pose proof (sorted_tail Hs) as Hs'.
      apply (derivable_pt_lim_ext (glue b1 (fun x => peval c (x - b0)) (pfun (b1 :: b2 :: bs) (c' :: cs)))); [reflexivity|].
      change (pfun (b0 :: b1 :: b2 :: bs) (map polyder1 (c :: c' :: cs)) x)
        with (glue b1 (fun x => peval (polyder1 c) (x - b0)) (pfun (b1 :: b2 :: bs) (map polyder1 (c' :: cs))) x).
      apply glue_derivable.
      * intros y. apply shifted_derivable.
      * intros y. apply IH; [exact Hs'|cbn in *; lia|exact Hj|exact Hj'].
      * rewrite pfun_at_first by exact Hs'. exact J.
      * intros _. cbn [map]. rewrite pfun_at_first by exact Hs'. exact J'.
Qed.
(* inside a piece no joining condition is needed *)
Lemma derivable_local f g x l d : 0 < d -> (forall y, Rabs (y - x) < d -> f y = g y) -> derivable_pt_lim f x l -> derivable_pt_lim g x l.
Proof.
  intros Hd E D eps He. destruct (D eps He) as [[d1 D1] H]. cbn [pos] in H.
  assert (P : 0 < Rmin d d1) by (apply Rmin_pos; lra). exists (mkposreal _ P). intros h Hh Hb. cbn [pos] in Hb.
  pose proof (Rmin_l d d1). pose proof (Rmin_r d d1). rewrite <- !E.
  - apply H; [exact Hh|lra].
  - rewrite Rminus_diag_eq, Rabs_R0 by reflexivity. exact Hd.
  - replace (x + h - x) with h by ring. lra.
Qed.
Lemma wf_pieces cs cs' bs : well_formed cs bs -> List.length cs' = List.length cs -> Forall (fun c => c <> []) cs' -> well_formed cs' bs.
Proof.
  intros [Hs [Hl [Hc Hf]]] L F. split; [exact Hs|]. split; [lia|]. split; [|exact F].
  intros ->. destruct cs; [congruence|cbn in L; lia].
Qed.
Lemma pfun_derivable_inside cs bs i x : well_formed cs bs -> (i < List.length cs)%nat -> in_piece bs i x ->
  derivable_pt_lim (pfun bs cs) x (peval (polyder1 (nth i cs [])) (x - nth i bs 0)).
Proof.
  intros W Hi Hx. unfold in_piece in Hx.
  apply (derivable_local (fun x => peval (nth i cs []) (x - nth i bs 0)) _ x _ (Rmin (x - nth i bs 0) (nth (S i) bs 0 - x))).
  - apply Rmin_pos; lra.
  - intros y Hy. symmetry. apply pfun_piece; [exact W|exact Hi|].
    pose proof (Rmin_l (x - nth i bs 0) (nth (S i) bs 0 - x)). pose proof (Rmin_r (x - nth i bs 0) (nth (S i) bs 0 - x)).
    apply Rabs_def2 in Hy. lra.
  - apply shifted_derivable.
Qed.

(* ---- derivative ------------------------------------------------------------------------ *)
Lemma nth_map_polyder i cs : (i < List.length cs)%nat -> nth i (map polyder1 cs) [] = polyder1 (nth i cs []).
Proof. intros H. change [] with (polyder1 []) at 1. apply map_nth. Qed.
Lemma polyder1_nonempty c : (2 <= List.length c)%nat -> polyder1 c <> [].
Proof.
  intros H E. apply (f_equal (@List.length R)) in E. unfold polyder1 in E.
  rewrite map2_length, countdown_length, removelast_length in E. cbn in E. lia.
Qed.
Lemma derivative_spec cs bs fl : well_formed cs bs -> Forall (fun c => 2 <= List.length c)%nat cs ->
  exists p q F, pp_new cs bs fl = Ok p /\ pp_derivative p = Ok q /\
  (forall x, between_breaks bs x -> pp_call p x = Ok (F x)) /\
  (forall i x, (i < List.length cs)%nat -> in_piece bs i x -> exists d, pp_call q x = Ok d /\ derivable_pt_lim F x d).
Proof.
  intros W H2. assert (Hb : bs <> []) by (intros ->; destruct W as [_ [W _]]; cbn in W; lia).
  assert (W' : well_formed (map polyder1 cs) bs).
  { apply (wf_pieces cs); [exact W|apply map_length|]. apply Forall_map. eapply Forall_impl; [|exact H2].
    intros c. apply polyder1_nonempty. }
  do 2 eexists. exists (pfun bs cs). rewrite pp_new_ok by exact Hb. split; [reflexivity|].
  unfold pp_derivative. cbn [cols breaks fill]. rewrite pp_new_ok by exact Hb. split; [reflexivity|]. split.
  - intros x Hx. apply (call_pfun cs bs fl); [exact W|now rewrite pp_new_ok|exact Hx].
  - intros i x Hi Hx. exists (peval (polyder1 (nth i cs [])) (x - nth i bs 0)). split.
    + rewrite (call_pfun (map polyder1 cs) bs fl); [|exact W'|now rewrite pp_new_ok|].
      * f_equal. rewrite (pfun_piece _ bs i x W'); [now rewrite nth_map_polyder|now rewrite map_length|].
        unfold in_piece in Hx. lra.
      * apply (in_piece_between cs bs i x W Hi). unfold in_piece in Hx. lra.
    + now apply pfun_derivable_inside.
Qed.
(* a piecewise constant has no derivative the code can evaluate *)
Lemma geti_ok {A} (l : list A) i d : (i < List.length l)%nat -> geti l i = Ok (nth i l d).
Proof. intros H. unfold geti. now rewrite (nth_error_nth' l d H). Qed.
Lemma pp_index_bound bs x : (2 <= List.length bs)%nat -> (pp_index bs x < List.length bs - 1)%nat.
Proof.
  intros H. unfold pp_index. assert (G : forall l, (count_below l x <= List.length l)%nat).
  { induction l as [|b l IH]; cbn; [lia|]. destruct (Rlt_dec b x); lia. }
  specialize (G (removelast bs)). rewrite removelast_length in G. lia.
Qed.
Lemma derivative_constant cs bs fl x : well_formed cs bs -> Forall (fun c => List.length c = 1%nat) cs -> between_breaks bs x ->
  exists p q, pp_new cs bs fl = Ok p /\ pp_derivative p = Ok q /\ pp_call q x = Err IndexError.
Proof.
  intros W H1 Hx. assert (Hb : bs <> []) by (intros ->; destruct W as [_ [W _]]; cbn in W; lia).
  do 2 eexists. rewrite pp_new_ok by exact Hb. split; [reflexivity|].
  unfold pp_derivative. cbn [cols breaks fill]. rewrite pp_new_ok by exact Hb. split; [reflexivity|].
  unfold pp_call, pp_call_as, inside. cbn [lo hi breaks cols fill].
  destruct Hx as [B1 B2]. destruct (Rle_dec (hd 0 bs) x); [|lra]. destruct (Rle_dec x (last bs 0)); [|lra]. cbn [andb].
  destruct W as [_ [Wl [Wc _]]]. assert (1 <= List.length cs)%nat by (destruct cs; [congruence|cbn; lia]).
  pose proof (pp_index_bound bs x ltac:(lia)) as Hi.
  rewrite (geti_ok bs _ 0) by lia. rewrite (geti_ok _ _ []) by (rewrite map_length; lia). cbn [bind].
  rewrite nth_map_polyder by lia. rewrite Forall_forall in H1.
  assert (Hi' : (pp_index bs x < List.length cs)%nat) by lia.
  specialize (H1 (nth (pp_index bs x) cs []) (nth_In cs [] Hi')).
  destruct (nth (pp_index bs x) cs []) as [|c [|]]; try (cbn in H1; lia). reflexivity.
Qed.
