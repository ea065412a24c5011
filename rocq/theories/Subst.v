(* Substitution in the integral of a function that is Riemann integrable only *)
From Coq Require Import Reals Lra Lia List.
From Coquelicot Require Import Coquelicot.
From Verif Require Import Base SeaSpec.
Local Open Scope R_scope.

Definition mp (phi : R -> R) (p : @SF_seq R) : @SF_seq R := mkSF_seq (phi (SF_h p)) (seq.map (fun q => (phi (fst q), phi (snd q))) (SF_t p)).
Lemma mp_cons phi h s : mp phi (SF_cons h s) = SF_cons (phi (fst h), phi (snd h)) (mp phi s).
Proof. destruct h; reflexivity. Qed.
Lemma mp_h phi p : SF_h (mp phi p) = phi (SF_h p).
Proof. reflexivity. Qed.
Definition top (p : @SF_seq R) : R := seq.last (SF_h p) (SF_lx p).
Lemma top_cons h s : top (SF_cons h s) = top s.
Proof. destruct h, s; reflexivity. Qed.
Lemma mp_top phi p : top (mp phi p) = phi (top p).
Proof. induction p as [x|h s IH] using SF_cons_ind; [reflexivity|]. now rewrite mp_cons, !top_cons. Qed.
Lemma ptd_cons_h (h : R * R) s : pointed_subdiv (SF_cons h s) -> fst h <= snd h <= SF_h s.
Proof. intros H. specialize (H O). destruct h, s. cbn in *. apply H. lia. Qed.
Lemma top_ge p : pointed_subdiv p -> SF_h p <= top p.
Proof.
  induction p as [x|h s IH] using SF_cons_ind; intros H; [unfold top; cbn; lra|]. rewrite top_cons. pose proof (ptd_cons_h _ _ H) as H0. pose proof (IH (ptd_cons _ _ H)). cbn in *. lra.
Qed.
Lemma step_cons (h : R * R) (s : @SF_seq R) : seq_step (SF_lx (SF_cons h s)) = Rmax (Rabs (SF_h s - fst h)) (seq_step (SF_lx s)).
Proof. destruct h, s; reflexivity. Qed.
Lemma mp_pointed phi a b p : (forall x y, a <= x -> x <= y -> y <= b -> phi x <= phi y) -> a <= SF_h p -> top p <= b -> pointed_subdiv p -> pointed_subdiv (mp phi p).
Proof.
  intros M. induction p as [x|h s IH] using SF_cons_ind; intros H1 H2 H; [intros i Hi; cbn in Hi; lia|]. rewrite top_cons in H2. pose proof (ptd_cons_h _ _ H) as H0. pose proof (ptd_cons _ _ H) as H3. pose proof (top_ge _ H3). cbn in H1.
  rewrite mp_cons. specialize (IH ltac:(lra) H2 H3). intros [|i] Hi.
  - cbn. destruct s as [sh st]. cbn in *. split; apply M; lra.
  - cbn. apply IH. cbn in *. lia.
Qed.
Lemma substitution (g phi dphi : R -> R) a b l : a <= b -> (forall x, a <= x <= b -> is_derive phi x (dphi x)) -> (forall x, a <= x <= b -> continuous dphi x) -> (forall x, a <= x <= b -> 0 < dphi x) ->
  area g (phi a) (phi b) l -> area (fun x => g (phi x) * dphi x) a b l.
Proof.
  intros Hab HD HC HP HG.
  assert (MV : forall x y, a <= x -> x <= y -> y <= b -> exists c, x <= c <= y /\ phi y - phi x = dphi c * (y - x)).
  { intros x y H1 H2 H3. destruct (MVT_gen phi x y dphi) as (c & Hc & E).
    - intros z. rewrite Rmin_left, Rmax_right by lra. intros Hz. apply HD. lra.
    - intros z. rewrite Rmin_left, Rmax_right by lra. intros Hz. apply continuity_pt_filterlim. apply (ex_derive_continuous phi). exists (dphi z). apply HD. lra.
    - rewrite Rmin_left, Rmax_right in Hc by lra. exists c. split; assumption. }
  assert (M : forall x y, a <= x -> x <= y -> y <= b -> phi x <= phi y).
  { intros x y H1 H2 H3. destruct (MV x y H1 H2 H3) as (c & Hc & E). assert (0 < dphi c) by (apply HP; lra). assert (0 <= dphi c * (y - x)) by (apply Rmult_le_pos; lra). lra. }
  pose proof (M a b ltac:(lra) Hab ltac:(lra)) as Mab.
  destruct (ex_RInt_ub g (phi a) (phi b) (ex_intro _ l HG)) as (B & HB). rewrite Rmin_left, Rmax_right in HB by lra.
  assert (HB' : forall x, a <= x <= b -> Rabs (g (phi x)) <= Rmax B 0 + 1). { intros x Hx. assert (T := HB (phi x) ltac:(split; apply M; lra)). change (norm (g (phi x))) with (Rabs (g (phi x))) in T. pose proof (Rmax_l B 0). lra. }
  set (K := Rmax B 0 + 1) in *. assert (HK : 0 < K) by (unfold K; pose proof (Rmax_r B 0); lra).
  destruct (continuity_ab_maj dphi a b Hab) as (xm & Hxm & _). { intros c Hc. apply continuity_pt_filterlim. now apply HC. }
  set (L := Rmax (dphi xm) 0 + 1). assert (HL : 0 < L) by (unfold L; pose proof (Rmax_r (dphi xm) 0); lra). assert (HL' : forall x, a <= x <= b -> dphi x <= L). { intros x Hx. specialize (Hxm x Hx). unfold L. pose proof (Rmax_l (dphi xm) 0). lra. }
  unfold area, is_RInt. apply filterlim_locally. intros eps.
  assert (He1 : 0 < eps / 2 / (K * (b - a + 1))). { apply Rdiv_lt_0_compat; [destruct eps; cbn; lra|]. apply Rmult_lt_0_compat; lra. }
  destruct (unifcont_1d dphi a b HC (mkposreal _ He1)) as (d1 & Hd1).
  unfold area, is_RInt in HG. assert (He2 : 0 < eps / 2) by (destruct eps; cbn; lra). pose proof (proj1 (filterlim_locally _ _) HG (mkposreal _ He2)) as (d2 & Hd2). cbn in Hd2.
  assert (Hd : 0 < Rmin d1 (d2 / L)). { apply Rmin_pos; [apply cond_pos|]. apply Rdiv_lt_0_compat; [apply cond_pos|easy]. }
  exists (mkposreal _ Hd). intros p Hs (Hp & Hh & Ht). cbn in Hs. rewrite Rmin_left in Hh by lra. rewrite Rmax_right in Ht by lra. fold (top p) in Ht.
  assert (Core : seq_step (SF_lx (mp phi p)) <= L * seq_step (SF_lx p) /\ Rabs (Riemann_sum (fun x => g (phi x) * dphi x) p - Riemann_sum g (mp phi p)) <= (K * (eps / 2 / (K * (b - a + 1)))) * (top p - SF_h p)).
  { assert (H1 : a <= SF_h p) by lra. assert (H2 : top p <= b) by lra. assert (Hs' : seq_step (SF_lx p) < d1). { eapply Rlt_le_trans; [exact Hs|apply Rmin_l]. } clear Hs Hh Ht. revert Hp H1 H2 Hs'. induction p as [x|h s IH] using SF_cons_ind; intros Hp H1 H2 Hs.
    - unfold mp, top, seq_step, Riemann_sum. cbn. split; [lra|]. change (@zero _) with 0. rewrite Rminus_0_r, Rabs_R0. apply Req_le. ring.
    - rewrite top_cons in H2 |- *. rewrite mp_cons, !step_cons in *. pose proof (ptd_cons_h _ _ Hp) as H0. pose proof (ptd_cons _ _ Hp) as H3. pose proof (top_ge _ H3) as H4. cbn [fst SF_h] in *. cbn in H1.
      assert (Hs1 : seq_step (SF_lx s) < d1). { eapply Rle_lt_trans; [apply Rmax_r|exact Hs]. } assert (Hs2 : Rabs (SF_h s - fst h) < d1). { eapply Rle_lt_trans; [apply Rmax_l|exact Hs]. }
      destruct (IH H3 ltac:(lra) H2 Hs1) as (I1 & I2). rewrite mp_h. destruct (MV (fst h) (SF_h s) H1 ltac:(lra) ltac:(lra)) as (c & Hc & E). split.
      + apply Rmax_lub. * rewrite E. rewrite Rabs_mult. rewrite (Rabs_right (dphi c)) by (apply Rle_ge, Rlt_le, HP; lra). apply Rmult_le_compat; [left; apply HP; lra|apply Rabs_pos|apply HL'; lra|apply Rmax_l]. * eapply Rle_trans; [exact I1|]. apply Rmult_le_compat_l; [lra|apply Rmax_r].
      + rewrite !Riemann_sum_cons. cbn [fst snd]. rewrite mp_h, E. change (@plus _) with Rplus. change (@scal _ _) with Rmult.
        set (A := Riemann_sum (fun x => g (phi x) * dphi x) s) in *. set (A' := Riemann_sum g (mp phi s)) in *. change (@plus _) with Rplus. change (@scal _ _) with Rmult.
        replace ((SF_h s - fst h) * (g (phi (snd h)) * dphi (snd h)) + A - (dphi c * (SF_h s - fst h) * g (phi (snd h)) + A')) with (g (phi (snd h)) * (dphi (snd h) - dphi c) * (SF_h s - fst h) + (A - A')) by ring.
        eapply Rle_trans; [apply Rabs_triang|]. rewrite !Rabs_mult. rewrite (Rabs_right (SF_h s - fst h)) in * by lra.
        assert (U : Rabs (dphi (snd h) - dphi c) <= eps / 2 / (K * (b - a + 1))). { assert (N := Hd1 c (snd h) ltac:(lra) ltac:(lra)). assert (Bc : ball c d1 (snd h)). { change (Rabs (snd h - c) < d1). apply Rabs_def1; lra. } specialize (N Bc). apply Rnot_lt_le. intros C. apply N. intros Q. change (Rabs (dphi (snd h) - dphi c) < eps / 2 / (K * (b - a + 1))) in Q. lra. }
        replace (SF_h (SF_cons h s)) with (fst h) by reflexivity. eapply Rle_trans; [apply Rplus_le_compat; [|exact I2]|].
        * apply Rmult_le_compat_r; [lra|]. apply Rmult_le_compat; [apply Rabs_pos|apply Rabs_pos|apply HB'; lra|exact U].
        * apply Req_le. ring. }
  destruct Core as (C1 & C2). change (Rabs (sign (b - a) * Riemann_sum (fun x => g (phi x) * dphi x) p - l) < eps).
  assert (Hd2' := Hd2 (mp phi p)). change (seq_step (SF_lx (mp phi p)) < d2 -> pointed_subdiv (mp phi p) /\ SF_h (mp phi p) = Rmin (phi a) (phi b) /\ top (mp phi p) = Rmax (phi a) (phi b) -> Rabs (sign (phi b - phi a) * Riemann_sum g (mp phi p) - l) < eps / 2) in Hd2'.
  assert (D : Rabs (sign (phi b - phi a) * Riemann_sum g (mp phi p) - l) < eps / 2).
  { apply Hd2'. - eapply Rle_lt_trans; [exact C1|]. assert (seq_step (SF_lx p) < d2 / L). { eapply Rlt_le_trans; [exact Hs|apply Rmin_r]. } apply (Rmult_lt_compat_l L) in H; [|easy]. replace (L * (d2 / L)) with (pos d2) in H by (field; lra). exact H.
    - rewrite Rmin_left, Rmax_right by lra. split; [apply (mp_pointed phi a b); [exact M|lra|lra|exact Hp]|]. rewrite mp_h, mp_top, Hh, Ht. split; reflexivity. }
  assert (E2 : K * (eps / 2 / (K * (b - a + 1))) * (top p - SF_h p) < eps / 2). { rewrite Hh, Ht. replace (K * (eps / 2 / (K * (b - a + 1))) * (b - a)) with (eps / 2 * ((b - a) / (b - a + 1))) by (field; lra). assert (Q : (b - a) / (b - a + 1) < 1). { apply (Rmult_lt_reg_r (b - a + 1)); [lra|]. unfold Rdiv. rewrite Rmult_assoc, Rinv_l by lra. lra. } apply (Rmult_lt_compat_l (eps / 2)) in Q; [|exact He2]. rewrite Rmult_1_r in Q. exact Q. }
  destruct (Rle_lt_or_eq_dec a b Hab) as [Lt|Eq].
  - destruct (MV a b ltac:(lra) Hab ltac:(lra)) as (c & Hc & E). assert (0 < dphi c * (b - a)) by (apply Rmult_lt_0_compat; [apply HP; lra|lra]). rewrite sign_eq_1 in D |- * by lra. rewrite Rmult_1_l in *.
    replace (Riemann_sum (fun x => g (phi x) * dphi x) p - l) with ((Riemann_sum (fun x => g (phi x) * dphi x) p - Riemann_sum g (mp phi p)) + (Riemann_sum g (mp phi p) - l)) by ring. eapply Rle_lt_trans; [apply Rabs_triang|]. lra.
  - rewrite <- Eq in D |- *.
    replace (phi a - phi a) with 0 in D by ring. replace (a - a) with 0 by ring. rewrite sign_0, Rmult_0_l in D. rewrite sign_0, Rmult_0_l. lra.
Qed.
Lemma substitution_down (g phi dphi : R -> R) a b l : a <= b -> (forall x, a <= x <= b -> is_derive phi x (dphi x)) -> (forall x, a <= x <= b -> continuous dphi x) -> (forall x, a <= x <= b -> dphi x < 0) ->
  area g (phi b) (phi a) l -> area (fun x => g (phi x) * - dphi x) a b l.
Proof.
  intros Hab HD HC HN HG. apply (is_RInt_ext (fun x => g (- - phi x) * - dphi x)). { intros x _. now rewrite Ropp_involutive. }
  apply (substitution (fun y => g (- y)) (fun x => - phi x) (fun x => - dphi x)); [exact Hab| | | |].
  - intros x Hx. apply (is_derive_opp phi). now apply HD.
  - intros x Hx. apply (continuous_opp dphi). now apply HC.
  - intros x Hx. specialize (HN x Hx). lra.
  - assert (Q : is_RInt (fun y => - (- g (- y))) (- phi a) (- phi b) (- - l)). 2:{ rewrite Ropp_involutive in Q. apply (is_RInt_ext (fun y => - - g (- y))); [intros; apply Ropp_involutive|exact Q]. }
    apply (is_RInt_opp (fun y => - g (- y))). apply (is_RInt_comp_opp g). rewrite !Ropp_involutive. apply (is_RInt_swap g). exact HG.
Qed.
