From Coq Require Import Reals Lra Lia Permutation.
From Verif Require Import Base PolyModel FilterModel FilterProofs3 SlopesProofs3 GridModel GridSpec GridProofs GridProofs2 GridProofs3 GridProofs4.
Local Open Scope R_scope.

(* ---- the checks on the arguments ---- *)
Definition covered (n : nat) (g : list (R * R)) (p : list R) : Prop := Forall2 (fun q v => node q 0 <= v <= node q (n - 1)) g p.
Lemma inside_covered n g p : inside n g p -> covered n g p.
Proof. intros H. induction H as [|q v g p [H1 H2] H IH]; constructor; [lra|exact IH]. Qed.
Lemma row_nth q n i : (i < n)%nat -> at_R (map (node q) (seq 0 n)) i = node q i.
Proof. intros H. unfold at_R. apply nth_error_nth, row_at, H. Qed.
Lemma step_row q n : (2 <= n)%nat -> step (map (node q) (seq 0 n)) = snd q.
Proof. intros H. unfold step. rewrite !row_nth by lia. rewrite node_S. lra. Qed.
Lemma covered_length n g p : covered n g p -> List.length p = List.length g.
Proof. induction 1; cbn; congruence. Qed.
Lemma gridcount_checks n g data y : (2 <= n)%nat -> g <> [] -> Forall (fun q => 0 < snd q) g -> data <> [] -> (forall p, In p data -> covered n g p) ->
  gridcount data (nodes n g) y =
    (let binx := map (fun p => map (fun q => bin (fst q) (snd q)) (combine (nodes n g) p)) data in
     let w := prodR (map snd g) in
     if (List.length g =? 1)%nat then gridcount_1d (map (fun p => at_R p 0) data) (hd [] (nodes n g)) y w (map (fun b => hd 0%Z b) binx) n
     else gridcount_nd data (nodes n g) y w binx n).
Proof.
  intros Hn Hg Hp Hd Hc. unfold gridcount. assert (Lx : List.length (nodes n g) = List.length g) by apply map_length.
  assert (Li : List.length (hd [] (nodes n g)) = n) by (destruct g; [congruence|]; cbn; now rewrite map_length, seq_length). rewrite Lx, Li.
  replace (existsb (fun p => negb (List.length p =? List.length g)%nat) data) with false.
  2:{ symmetry. apply not_true_iff_false. intros E. apply existsb_exists in E. destruct E as (p & Hp' & E). rewrite (covered_length _ _ _ (Hc p Hp')), Nat.eqb_refl in E. discriminate. }
  replace (List.length data =? 0)%nat with false by (destruct data; [congruence|reflexivity]).
  match goal with |- context [existsb ?f data] => replace (existsb f data) with false end.
  2:{ symmetry. apply not_true_iff_false. intros E. apply existsb_exists in E. destruct E as (p & Hp' & E). apply Hc in Hp'. clear - Hp' E Hn. induction Hp' as [|q v g p Hv H IH]; [discriminate|].
      cbn [nodes map combine existsb fst snd] in E. rewrite !row_nth in E by lia. apply orb_true_iff in E. destruct E as [E|E]; [|apply IH, E]. destruct (Rlt_dec _ _) in E; [lra|]. destruct (Rlt_dec _ _) in E; [lra|discriminate]. }
  replace (n <? 2)%nat with false by (symmetry; apply Nat.ltb_ge; lia).
  replace (existsb (fun r => if Req_EM_T (step r) 0 then true else false) (nodes n g)) with false.
  2:{ symmetry. apply not_true_iff_false. intros E. apply existsb_exists in E. destruct E as (r & Hr & E). apply in_map_iff in Hr. destruct Hr as (q & <- & Hq). rewrite step_row in E by exact Hn.
      rewrite Forall_forall in Hp. specialize (Hp q Hq). destruct (Req_EM_T _ _) in E; [lra|discriminate]. }
  replace (map step (nodes n g)) with (map snd g); [reflexivity|]. unfold nodes. rewrite map_map. apply map_ext. intros q. symmetry. now apply step_row.
Qed.
Lemma entry_forder n c idx : entry n c (meshgrid_order idx) = at_R c (forder n idx).
Proof. destruct idx as [|i0 [|i1 r]]; reflexivity. Qed.
Lemma at_map_div (c : list R) w s : at_R (map (fun v => v / w) c) s = at_R c s / w.
Proof. unfold at_R. replace 0 with (0 / w) at 1 by (unfold Rdiv; ring). apply (map_nth (fun v => v / w)). Qed.
Lemma prod_pos g : Forall (fun q => 0 < snd q) g -> 0 < prodR (map (@snd R R) g).
Proof. unfold prodR. induction 1; cbn [map fold_right]; [lra|]. now apply Rmult_lt_0_compat. Qed.
(* ---- several dimensions ---- *)
Lemma gridcount_nd_ok n g data y : (2 <= n)%nat -> g <> [] -> Forall (fun q => 0 < snd q) g -> (forall p, In p data -> inside n g p) -> List.length y = List.length data ->
  exists c, gridcount_nd data (nodes n g) y (prodR (map snd g)) (map (fun p => map (fun q => bin (fst q) (snd q)) (combine (nodes n g) p)) data) n = Ok c /\
    List.length c = (n ^ List.length g)%nat /\ forall idx, List.length idx = List.length g -> Forall (fun i => (i < n)%nat) idx ->
      at_R c (forder n idx) = sumR (map (fun q => snd q * share g (fst q) idx) (combine data y)).
Proof.
  intros Hn Hg Hp Hi Ly. unfold gridcount_nd. assert (Lx : List.length (nodes n g) = List.length g) by apply map_length. rewrite Lx, corners_pairs.
  remember (map (trips g) data) as TT eqn:ETT.
  assert (TS : forall p, In p data -> Forall (good n) (trips g p) /\ map tq (trips g p) = g /\ map tv (trips g p) = p /\ List.length (trips g p) = List.length g /\
    map (fun q => bin (fst q) (snd q)) (combine (nodes n g) p) = map (fun t => Z.of_nat (tb t)) (trips g p)) by (intros p Hp'; apply trips_spec; auto).
  assert (E1 : map (map tv) TT = data).
  { rewrite ETT. rewrite map_map. rewrite <- (map_id data) at 2. apply map_ext_in. intros p Hp'. apply TS, Hp'. }
  assert (E2 : map (fun p => map (fun q => bin (fst q) (snd q)) (combine (nodes n g) p)) data = map (map (fun t => Z.of_nat (tb t))) TT).
  { rewrite ETT. rewrite map_map. apply map_ext_in. intros p Hp'. apply TS, Hp'. }
  destruct g as [|q0 g0] eqn:Eg; [congruence|]. rewrite <- Eg in *. set (d := List.length g) in *. assert (Hd : d = S (List.length g0)) by (unfold d; rewrite Eg; reflexivity).
  destruct (corner_loop_ok n d g TT y) with (ls := pairs d) (c := repeat 0 (n ^ d)) as (c & Ec & Lc & Cc).
  { rewrite ETT. rewrite map_length. exact Ly. }
  { intros ts Hts. rewrite ETT in Hts. apply in_map_iff in Hts. destruct Hts as (p & <- & Hp'). destruct (TS p Hp') as (A & B & C & D & _). auto. }
  { intros l Hl. unfold pairs in Hl. apply in_flat_map in Hl. destruct Hl as (ir & _ & [<-|[<-|[]]]); unfold tbits; rewrite ?map_length, ?seq_length; reflexivity. }
  { apply repeat_length. }
  rewrite E1, <- E2 in Ec. rewrite Ec. cbn [bind]. eexists. split; [reflexivity|]. split; [rewrite map_length; exact Lc|]. intros idx Li Hx. rewrite at_map_div, Cc, at_repeat, Rplus_0_l.
  rewrite sumR_swap. rewrite ETT. rewrite combine_map_l, map_map. cbn [fst snd]. pose proof (prod_pos g Hp) as W.
  replace (map (fun x => sumR (map (fun l => snd x * cpart n (forder n idx) (trips g (fst x)) l) (pairs d))) (combine data y)) with (map (fun x => prodR (map snd g) * (snd x * share g (fst x) idx)) (combine data y)).
  - rewrite sumR_map_scal. field. lra.
  - apply map_ext_in. intros [p yv] Hpy. apply in_combine_l in Hpy. cbn [fst snd]. destruct (TS p Hpy) as (A & B & C & D & _). rewrite Hd, pairs_sum, bsum_scal. rewrite <- Hd.
    rewrite (bsum_ext d _ (pf (trips g p) idx)) by (intros l Hl; apply cpart_pf; [exact A|lia|lia|exact Hx]). rewrite <- D at 1. rewrite (bsum_pf n _ A idx ltac:(lia)), B, C.
    replace (map (fun t => snd (tq t)) (trips g p)) with (map snd g) by (rewrite <- B at 1; rewrite map_map; reflexivity). ring.
Qed.
(* ---- one dimension ---- *)
Lemma gridcount_1d_ok n q vs y : (2 <= n)%nat -> 0 < snd q -> (forall v, In v vs -> node q 0 <= v < node q (n - 1)) -> List.length y = List.length vs ->
  exists c, gridcount_1d vs (map (node q) (seq 0 n)) y (snd q) (map (bin (map (node q) (seq 0 n))) vs) n = Ok c /\
    List.length c = n /\ forall i, (i < n)%nat -> at_R c i = sumR (map (fun p => snd p * tent ((fst p - node q i) / snd q)) (combine vs y)).
Proof.
  intros Hn Hq Hv Ly. assert (B : forall v, In v vs -> bin (map (node q) (seq 0 n)) v = Z.of_nat (bnat q v) /\ (S (bnat q v) < n)%nat /\ node q (bnat q v) <= v < node q (S (bnat q v))) by (intros v H; apply bin_spec; auto).
  replace (map (bin (map (node q) (seq 0 n))) vs) with (map (fun v => Z.of_nat (bnat q v)) vs) by (apply map_ext_in; intros v H; symmetry; apply B, H).
  unfold gridcount_1d. rewrite !map_map.
  rewrite (all_ok_ok _ (fun v => node q (S (bnat q v)))).
  2:{ intros v H. destruct (B v H) as (_ & B2 & _). apply (getz_nat _ _ (S (bnat q v))); [lia|now apply row_at]. }
  cbn [bind]. rewrite times_y_ok by (rewrite map_length, combine_length, map_length; lia). cbn [bind]. unfold accumsum.
  destruct (bincount_ok (map (fun v => Z.of_nat (bnat q v)) vs) (map (fun p => fst p * snd p) (combine (map (fun p => fst p - snd p) (combine (map (fun v => node q (S (bnat q v))) vs) vs)) y)) n) as (c1 & E1 & L1 & C1).
  { rewrite !map_length, combine_length, map_length, combine_length, map_length. lia. }
  { intros i Hi. apply in_map_iff in Hi. destruct Hi as (v & <- & H). destruct (B v H) as (_ & B2 & _). lia. }
  rewrite E1. cbn [bind]. rewrite (all_ok_ok _ (fun v => node q (bnat q v))).
  2:{ intros v H. destruct (B v H) as (_ & B2 & _). apply (getz_nat _ _ (bnat q v)); [lia|apply row_at; lia]. }
  cbn [bind]. rewrite times_y_ok by (rewrite map_length, combine_length, map_length; lia). cbn [bind].
  destruct (bincount_ok (map (fun v => (Z.of_nat (bnat q v) + 1)%Z) vs) (map (fun p => fst p * snd p) (combine (map (fun p => snd p - fst p) (combine (map (fun v => node q (bnat q v)) vs) vs)) y)) n) as (c2 & E2 & L2 & C2).
  { rewrite !map_length, combine_length, map_length, combine_length, map_length. lia. }
  { intros i Hi. apply in_map_iff in Hi. destruct Hi as (v & <- & H). destruct (B v H) as (_ & B2 & _). lia. }
  rewrite E2. cbn [bind]. destruct (add_arrays_ok c1 c2 ltac:(lia)) as (c & E & L & C). rewrite E. cbn [bind]. eexists. split; [reflexivity|]. split; [rewrite map_length; lia|].
  intros i Hi. rewrite at_map_div, C, C1, C2. unfold share_at.
  apply (Rmult_eq_reg_l (snd q)); [|lra]. rewrite <- sumR_map_scal. match goal with |- snd q * (?a / snd q) = _ => replace (snd q * (a / snd q)) with a by (field; lra) end.
  clear - B Hq Ly. revert y Ly. induction vs as [|v vs IH]; intros [|y0 y] Ly; try discriminate; [cbn; lra|]. destruct (B v (or_introl eq_refl)) as (_ & B2 & B3).
  cbn [map combine fst snd]. change (sumR (?x :: ?r)) with (x + sumR r). rewrite <- IH by (cbn in Ly; lia || (intros; apply B; now right)).
  pose proof (tent_split q v i _ Hq B3) as T. rewrite Nat2Z.id. replace (Z.to_nat (Z.of_nat (bnat q v) + 1)) with (S (bnat q v)) by lia.
  replace (snd q * (y0 * tent ((v - node q i) / snd q))) with (y0 * (snd q * tent ((v - node q i) / snd q))) by ring. rewrite T.
  destruct (bnat q v =? i)%nat, (S (bnat q v) =? i)%nat; lra.
Qed.
Lemma gridcount_ok n g data y : (2 <= n)%nat -> g <> [] -> Forall (fun q => 0 < snd q) g -> data <> [] -> (forall p, In p data -> inside n g p) -> List.length y = List.length data ->
  exists c, gridcount data (nodes n g) y = Ok c /\ List.length c = (n ^ List.length g)%nat /\
    forall idx, List.length idx = List.length g -> Forall (fun i => (i < n)%nat) idx ->
      entry n c (meshgrid_order idx) = sumR (map (fun q => snd q * share g (fst q) idx) (combine data y)).
Proof.
  intros Hn Hg Hp Hd Hi Ly. rewrite gridcount_checks; try assumption; [|intros p H; apply inside_covered, Hi, H]. cbv zeta.
  destruct (Nat.eqb_spec (List.length g) 1) as [E|E].
  - destruct g as [|q [|? ?]]; try discriminate. assert (Hq : 0 < snd q) by (inversion Hp; assumption). cbn [nodes map hd List.length].
    assert (S1 : forall p, In p data -> exists v, p = [v] /\ node q 0 <= v < node q (n - 1)).
    { intros p H. apply Hi in H. inversion H as [|? v ? p' H1 H2]; subst. inversion H2; subst. eauto. }
    destruct (gridcount_1d_ok n q (map (fun p => at_R p 0) data) y Hn Hq) as (c & Ec & Lc & Cc).
    { intros v Hv. apply in_map_iff in Hv. destruct Hv as (p & <- & H). destruct (S1 p H) as (v & -> & Hv). exact Hv. }
    { rewrite map_length. exact Ly. }
    exists c. split.
    + rewrite <- Ec. unfold prodR. cbn [fold_right]. rewrite Rmult_1_r. f_equal. rewrite !map_map. apply map_ext_in. intros p H. destruct (S1 p H) as (v & -> & _). reflexivity.
    + split; [rewrite Lc; cbn; lia|]. intros idx Li Hx. destruct idx as [|i [|? ?]]; try discriminate. inversion Hx; subst. rewrite entry_forder. cbn [forder]. rewrite Nat.mul_0_r, Nat.add_0_r, Cc by assumption.
      f_equal. rewrite combine_map_l, map_map. apply map_ext_in. intros [p yv] H. apply in_combine_l in H. destruct (S1 p H) as (v & -> & _). cbn. unfold at_R. cbn. ring.
  - destruct (gridcount_nd_ok n g data y Hn Hg Hp Hi Ly) as (c & Ec & Lc & Cc). exists c. split; [exact Ec|]. split; [exact Lc|]. intros idx Li Hx. rewrite entry_forder. now apply Cc.
Qed.
(* ---- mass and moments ---- *)
Lemma sumR_ext {A} (f g : A -> R) l : (forall x, In x l -> f x = g x) -> sumR (map f l) = sumR (map g l).
Proof. intros H. f_equal. now apply map_ext_in. Qed.
Lemma sumR_pick b n A (h : nat -> R) : (b < n)%nat -> sumR (map (fun i => (if (b =? i)%nat then A else 0) * h i) (seq 0 n)) = A * h b.
Proof.
  intros H. replace n with (b + S (n - b - 1))%nat by lia. rewrite seq_app, map_app, sumR_app. cbn [seq map Nat.add]. change (sumR (?x :: ?r)) with (x + sumR r).
  rewrite Nat.eqb_refl, !sumR_map_0; [lra| |]; intros i Hi; apply in_seq in Hi; destruct (Nat.eqb_spec b i); try lia; ring.
Qed.
Lemma tent_moment q v n a b : 0 < snd q -> (2 <= n)%nat -> node q 0 <= v < node q (n - 1) ->
  sumR (map (fun i => tent ((v - node q i) / snd q) * (a + b * node q i)) (seq 0 n)) = a + b * v.
Proof.
  intros Hq Hn Hv. destruct (bin_spec q v n Hq Hn Hv) as (_ & B2 & B3). apply (Rmult_eq_reg_l (snd q)); [|lra]. rewrite <- sumR_map_scal.
  rewrite (sumR_ext _ (fun i => (if (bnat q v =? i)%nat then node q (S (bnat q v)) - v else 0) * (a + b * node q i) + (if (S (bnat q v) =? i)%nat then v - node q (bnat q v) else 0) * (a + b * node q i))).
  - rewrite sumR_map_add, (sumR_pick (bnat q v) n _ (fun i => a + b * node q i)) by lia. rewrite (sumR_pick (S (bnat q v)) n _ (fun i => a + b * node q i)) by lia. rewrite node_S. ring.
  - intros i _. rewrite <- Rmult_assoc, (tent_split q v i _ Hq B3). ring.
Qed.
Lemma grid_sum_ext d n : forall f g, (forall idx, List.length idx = d -> Forall (fun i => (i < n)%nat) idx -> f idx = g idx) -> grid_sum d n f = grid_sum d n g.
Proof.
  induction d as [|d IH]; intros f g H; cbn [grid_sum]; [apply H; [reflexivity|constructor]|]. apply sumR_ext. intros i Hi. apply in_seq in Hi. apply IH. intros idx L F. apply H; [cbn; lia|constructor; [lia|exact F]].
Qed.
Lemma grid_sum_scal d n : forall c f, grid_sum d n (fun idx => c * f idx) = c * grid_sum d n f.
Proof. induction d as [|d IH]; intros c f; cbn [grid_sum]; [reflexivity|]. rewrite <- sumR_map_scal. apply sumR_ext. intros i _. apply IH. Qed.
Lemma grid_sum_sum {A} d n (l : list A) : forall f, grid_sum d n (fun idx => sumR (map (fun x => f x idx) l)) = sumR (map (fun x => grid_sum d n (f x)) l).
Proof.
  induction d as [|d IH]; intros f; cbn [grid_sum]; [reflexivity|]. rewrite <- sumR_swap. apply sumR_ext. intros i _. apply (IH (fun x idx => f x (i :: idx))).
Qed.
Lemma share_moment n g p : (2 <= n)%nat -> Forall (fun q => 0 < snd q) g -> inside n g p -> forall ab, List.length ab = List.length g ->
  grid_sum (List.length g) n (fun idx => share g p idx * multilinear ab (coordinates g idx)) = multilinear ab p.
Proof.
  intros Hn Hg H. induction H as [|q v g p Hv H IH]; intros [|[a b] ab] L; try discriminate; [cbn; lra|]. inversion Hg; subst. cbn [List.length grid_sum].
  rewrite (sumR_ext _ (fun i => multilinear ab p * (tent ((v - node q i) / snd q) * (a + b * node q i)))).
  - rewrite sumR_map_scal, tent_moment by assumption. cbn. ring.
  - intros i _. rewrite <- (IH ltac:(assumption) ab ltac:(cbn in L; lia)). rewrite Rmult_comm, <- grid_sum_scal. apply grid_sum_ext. intros idx _ _. cbn. ring.
Qed.
Lemma gridcount_moment n g data y c ab : (2 <= n)%nat -> g <> [] -> Forall (fun q => 0 < snd q) g -> (forall p, In p data -> inside n g p) -> List.length y = List.length data -> List.length ab = List.length g ->
  gridcount data (nodes n g) y = Ok c ->
  grid_sum (List.length g) n (fun idx => entry n c (meshgrid_order idx) * multilinear ab (coordinates g idx)) = sumR (map (fun q => snd q * multilinear ab (fst q)) (combine data y)).
Proof.
  intros Hn Hg Hp Hi Ly La E. assert (Hd : data <> []).
  { intros ->. revert E. unfold gridcount. cbn. discriminate. }
  destruct (gridcount_ok n g data y Hn Hg Hp Hd Hi Ly) as (c' & E' & Lc & Cc). rewrite E' in E. injection E as ->.
  rewrite (grid_sum_ext _ _ _ (fun idx => sumR (map (fun q => snd q * (share g (fst q) idx * multilinear ab (coordinates g idx))) (combine data y)))).
  - rewrite (grid_sum_sum _ n (combine data y) (fun q idx => snd q * (share g (fst q) idx * multilinear ab (coordinates g idx)))). apply sumR_ext. intros [p yv] H. apply in_combine_l in H. cbn [fst snd].
    rewrite grid_sum_scal. f_equal. apply share_moment; auto.
  - intros idx Li Hx. rewrite Cc by assumption. rewrite Rmult_comm, <- sumR_map_scal. apply sumR_ext. intros. ring.
Qed.
Lemma multilinear_one d : forall p, multilinear (repeat (1, 0) d) p = 1.
Proof. induction d as [|d IH]; intros [|v p]; cbn; try reflexivity. rewrite IH. ring. Qed.
Lemma share_nonneg g : forall p idx, 0 <= share g p idx.
Proof. induction g as [|q g IH]; intros [|v p] [|i idx]; cbn; try lra. apply Rmult_le_pos; [apply Rmax_l|apply IH]. Qed.
Lemma gridcount_mass n g data y c : (2 <= n)%nat -> g <> [] -> Forall (fun q => 0 < snd q) g -> (forall p, In p data -> inside n g p) -> List.length y = List.length data ->
  gridcount data (nodes n g) y = Ok c -> grid_sum (List.length g) n (fun idx => entry n c (meshgrid_order idx)) = sumR y.
Proof.
  intros Hn Hg Hp Hi Ly E. pose proof (gridcount_moment n g data y c (repeat (1, 0) (List.length g)) Hn Hg Hp Hi Ly ltac:(apply repeat_length) E) as M.
  rewrite (sumR_ext _ (fun q => snd q)) in M by (intros; rewrite multilinear_one; ring). rewrite (grid_sum_ext _ _ _ (fun idx => entry n c (meshgrid_order idx))) in M by (intros; rewrite multilinear_one; ring).
  rewrite M. f_equal. clear - Ly. revert y Ly. induction data as [|p data IH]; intros [|y0 y] L; try discriminate; [reflexivity|]. cbn. f_equal. apply IH. cbn in L. lia.
Qed.
Lemma gridcount_nonneg n g data y c : (2 <= n)%nat -> g <> [] -> Forall (fun q => 0 < snd q) g -> (forall p, In p data -> inside n g p) -> List.length y = List.length data ->
  (forall v, In v y -> 0 <= v) -> gridcount data (nodes n g) y = Ok c -> forall idx, List.length idx = List.length g -> Forall (fun i => (i < n)%nat) idx -> 0 <= entry n c (meshgrid_order idx).
Proof.
  intros Hn Hg Hp Hi Ly Hy E idx Li Hx. assert (Hd : data <> []) by (intros ->; revert E; unfold gridcount; cbn; discriminate).
  destruct (gridcount_ok n g data y Hn Hg Hp Hd Hi Ly) as (c' & E' & Lc & Cc). rewrite E' in E. injection E as ->. rewrite Cc by assumption.
  assert (G : forall l, (forall q, In q l -> 0 <= snd q) -> 0 <= sumR (map (fun q : list R * R => snd q * share g (fst q) idx) l)).
  { unfold sumR. induction l as [|q l IH]; intros H; cbn [map fold_right]; [lra|]. assert (0 <= snd q * share g (fst q) idx) by (apply Rmult_le_pos; [apply H; now left|apply share_nonneg]). specialize (IH ltac:(intros; apply H; now right)). lra. }
  apply G. intros [p v] H. apply in_combine_r in H. now apply Hy.
Qed.
