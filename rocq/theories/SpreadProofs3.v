From Coq Require Import Reals Lra Lia List Bool String.
From Coquelicot Require Import Coquelicot.
From Verif Require Import Base PolyModel SpreadModel SpreadSpec SeaModel SeaSpec SeaProofs SeaProofs4 SeaCases WaveProofs2 SpreadProofs SpreadProofs2.
Import ListNotations.
Local Open Scope R_scope.

Lemma nth_map_any {A B} (f : A -> B) l j d d' : (j < List.length l)%nat -> nth j (map f l) d' = f (nth j l d).
Proof. intros H. rewrite (nth_indep _ d' (f d)) by (now rewrite map_length). apply map_nth. Qed.
Definition cell (g : R -> R) (ive : nat -> R -> R) (k : kind) (th0 : list R) (par : list (option R)) (Nt : nat) (t0 : R) (j : nat) (t : R) (i : nat) : R :=
  match k with
  | WrapNorm => wrap_norm Nt (entry par i None) (wrap (t0 - entry th0 i 0)) j
  | _ => density g ive k (entry par i None) (wrap (t - entry th0 i 0))
  end.
Definition columns (th0 wn : list R) (par : list (option R)) : nat :=
  if (Nat.eqb (List.length th0) (List.length wn) || negb (Nat.eqb (List.length par) 1))%bool then List.length wn else 1%nat.
Lemma spreading_any g ive sA sK sB type theta0 method p theta1 w wc D1 : spreading g ive sA sK sB type theta0 method p theta1 w wc = Ok D1 ->
  let wn := map (fun w => w / wc) w in let th0 := main_direction theta0 wn in
  exists m k par, set_method method = Ok m /\ kind_of type = Ok k /\ spread_parameter sA sK sB k m p wn = Ok par
    /\ (List.length th0 = List.length wn \/ List.length th0 = 1%nat)
    /\ (theta1 <> [] -> List.length (hd [] D1) = columns th0 wn par)
    /\ forall theta, exists D, spreading g ive sA sK sB type theta0 method p theta w wc = Ok D /\ List.length D = List.length theta
         /\ (forall row, In row D -> List.length row = columns th0 wn par)
         /\ forall j i, (j < List.length theta)%nat -> (i < columns th0 wn par)%nat ->
            nth i (nth j D []) 0 = cell g ive k th0 par (List.length theta) (nth 0 theta 0) j (nth j theta 0) i.
Proof.
  intros E wn th0. unfold spreading in E. destruct (set_method method) as [m|] eqn:Em; [|discriminate E]. cbn [bind] in E. destruct (kind_of type) as [k|] eqn:Ek; [|discriminate E]. cbn [bind] in E.
  fold wn in E. fold th0 in E.
  destruct (negb (Nat.eqb (List.length th0) (List.length wn)) && negb (Nat.eqb (List.length th0) 1))%bool eqn:El; [discriminate E|].
  destruct (spread_parameter sA sK sB k m p wn) as [par|] eqn:Ep; [|discriminate E]. cbn [bind] in E. injection E as <-.
  exists m, k, par. split; [easy|]. split; [easy|]. split; [easy|]. split; [|split].
  - apply andb_false_iff in El. rewrite !negb_false_iff, !Nat.eqb_eq in El. exact El.
  - intros Hn. destruct theta1 as [|t r]; [easy|]. cbn [map List.length seq combine hd]. rewrite map_length, seq_length. reflexivity.
  - intros theta. eexists. split.
    + unfold spreading. rewrite Em. cbn [bind]. rewrite Ek. cbn [bind]. fold wn. fold th0. rewrite El, Ep. cbn [bind]. reflexivity.
    + fold (columns th0 wn par). split; [rewrite map_length, combine_length, seq_length, map_length; apply Nat.min_id|]. split.
      { intros row Hr. apply in_map_iff in Hr. destruct Hr as (jt & <- & _). now rewrite map_length, seq_length. }
      intros j i Hj Hi.
      assert (HL : List.length (combine (seq 0 (List.length (map wrap theta))) (map wrap theta)) = List.length theta) by (rewrite combine_length, seq_length, map_length; apply Nat.min_id).
      rewrite (nth_map_any _ _ j (0%nat, 0) []) by (now rewrite HL). rewrite (nth_map_any _ _ i 0%nat 0) by (now rewrite seq_length). rewrite seq_nth by easy. cbn [plus].
      rewrite combine_nth by (now rewrite seq_length). cbn [fst snd]. rewrite seq_nth by (now rewrite map_length). cbn [plus]. rewrite (nth_map_any wrap theta j 0 0) by easy.
      assert (H0 : nth 0 (map wrap theta) 0 = wrap (nth 0 theta 0)) by (apply nth_map_any; lia). rewrite H0. rewrite !wrap_twice. destruct k; reflexivity.
Qed.
Definition par_of (sA sK sB : R -> R) (k : kind) (s : R) : option R :=
  match k with
  | Cos2s => Some s
  | Box => Some (sA (s / (s + 1)))
  | Mises => Some (sK (s / (s + 1)))
  | Poisson => Some (s / (s + 1))
  | Sech2 => Some (sB (s / (s + 1)))
  | WrapNorm => fourier2d (s / (s + 1))
  end.
Lemma existsb_neg l : existsb (fun x => if Rlt_dec x 0 then true else false) l = false -> Forall (fun x => 0 <= x) l.
Proof.
  induction l as [|a l IH]; [constructor|]. cbn. intros H. apply orb_false_iff in H. destruct H as [H1 H2]. constructor; [|now apply IH]. destruct (Rlt_dec a 0); [discriminate H1|lra].
Qed.
Lemma parameter_inv sA sK sB k m p wn par : spread_parameter sA sK sB k m p wn = Ok par ->
  exists s, spread_values m p wn = Ok s /\ Forall (fun x => 0 <= x) s /\ par = map (par_of sA sK sB k) s.
Proof.
  unfold spread_parameter. destruct (spread_values m p wn) as [s|]; [|easy]. cbn [bind]. destruct (existsb _ s) eqn:Es; [easy|]. apply existsb_neg in Es. intros E. exists s. split; [easy|]. split; [easy|].
  assert (A : map (fun s => Rabs (s / (s + 1))) s = map (fun s => s / (s + 1)) s).
  { apply map_ext_in. intros a Ha. rewrite Forall_forall in Es. specialize (Es a Ha). apply Rabs_right. apply Rle_ge. apply Rmult_le_pos; [easy|]. left. apply Rinv_0_lt_compat. lra. }
  destruct k; unfold fourier2distpar in E; rewrite ?A, ?map_map in E; try (injection E as <-; reflexivity).
  unfold fourier2x in E. destruct (existsb _ _); [discriminate E|]. cbn [bind] in E. injection E as <-. rewrite map_map. reflexivity.
Qed.
Lemma values_inv m p wn s : spread_values m p wn = Ok s -> (m = FreqIndependent /\ s = [s_a p]) \/ (m = Mitsuyasu /\ s = map (mitsuyasu p) wn).
Proof. destruct m; cbn; intros E; try discriminate E; injection E as <-; [now left|now right]. Qed.
Lemma entry_map {A B} (f : A -> B) l i d d' : (i < List.length l)%nat \/ List.length l = 1%nat -> entry (map f l) i d' = f (entry l i d).
Proof.
  intros H. destruct l as [|a [|b l]]; [cbn in H; lia|reflexivity|]. cbn [map entry]. destruct H as [H|H]; [|cbn in H; lia]. apply (nth_map_any f (a :: b :: l)). exact H.
Qed.
(* the columns of an accepted call *)
Lemma column_facts g ive sA sK sB type theta0 method p theta1 w wc D1 i : spreading g ive sA sK sB type theta0 method p theta1 w wc = Ok D1 ->
  theta1 <> [] -> (i < List.length (hd [] D1))%nat ->
  exists s k, spread_at method p (nth i w 0 / wc) s /\ kind_of type = Ok k /\ forall theta, exists D, spreading g ive sA sK sB type theta0 method p theta w wc = Ok D /\ List.length D = List.length theta
    /\ forall j, (j < List.length theta)%nat -> nth i (nth j D []) 0 =
       match k with
       | WrapNorm => wrap_norm (List.length theta) (par_of sA sK sB k s) (wrap (nth 0 theta 0 - direction_at theta0 i (nth i w 0 / wc))) j
       | _ => density g ive k (par_of sA sK sB k s) (wrap (nth j theta 0 - direction_at theta0 i (nth i w 0 / wc)))
       end.
Proof.
  intros E Hn Hi. destruct (spreading_any _ _ _ _ _ _ _ _ _ _ _ _ _ E) as (m & k & par & Em & Ek & Ep & El & EL & EA). rewrite (EL Hn) in Hi. clear EL.
  destruct (parameter_inv _ _ _ _ _ _ _ _ Ep) as (s & Es & Fs & ->). set (wn := map (fun w => w / wc) w) in *.
  assert (Hlen : List.length wn = List.length w) by (unfold wn; apply map_length).
  assert (Hs : (i < List.length s)%nat \/ List.length s = 1%nat).
  { destruct (values_inv _ _ _ _ Es) as [[-> ->]|[-> ->]]; [now right|]. rewrite map_length. unfold columns in Hi. rewrite !map_length in Hi. destruct (Nat.eqb (List.length wn) 1) eqn:Q; [apply Nat.eqb_eq in Q; now right|]. rewrite orb_true_r in Hi. now left. }
  assert (Hs0 : 0 <= entry s i 0). { rewrite Forall_forall in Fs. apply Fs. destruct s as [|a [|b s]]; [cbn in Hs; lia|now left|]. unfold entry. apply nth_In. destruct Hs; [easy|discriminate]. }
  exists (entry s i 0), k. split; [|split; [easy|]].
  - split; [easy|]. destruct (values_inv _ _ _ _ Es) as [[-> ->]|[-> ->]]; [now left|]. right. split; [easy|]. rewrite (entry_map (mitsuyasu p) wn i 0 0) by (rewrite map_length in Hs; easy). f_equal. unfold wn. rewrite (entry_map (fun w => w / wc) w i 0 0).
    + f_equal. rewrite map_length, Hlen in Hs. destruct w as [|a [|b w]]; [reflexivity| |reflexivity]. cbn in Hs. destruct Hs as [Hs|_]; [now replace i with 0%nat by lia|].
      unfold columns in Hi. rewrite !map_length, Hlen in Hi. cbn in Hi. destruct (_ || _)%bool in Hi; now replace i with 0%nat by lia.
    + now rewrite map_length, Hlen in Hs.
  - intros theta. destruct (EA theta) as (D & ED & LD & _ & FD). exists D. split; [easy|]. split; [easy|]. intros j Hj. rewrite (FD j i Hj Hi). unfold cell. rewrite (entry_map (par_of sA sK sB k) s i 0 None) by easy.
    assert (Ed : entry (main_direction theta0 wn) i 0 = direction_at theta0 i (nth i w 0 / wc)).
    { destruct theta0 as [f|l]; cbn [main_direction direction_at]; [|destruct l as [|a [|b l]]; reflexivity].
      unfold columns in Hi. cbn [main_direction] in Hi. rewrite map_length, Nat.eqb_refl in Hi. cbn [orb] in Hi. rewrite (entry_map f wn i 0 0) by (now left). f_equal. unfold wn. rewrite (entry_map (fun w => w / wc) w i 0 0) by (left; lia). f_equal.
      rewrite Hlen in Hi. destruct w as [|a [|b w]]; [reflexivity| |reflexivity]. cbn in Hi. now replace i with 0%nat by lia. }
    rewrite Ed. destruct k; reflexivity.
Qed.
Lemma density_circular g ive sA sK sB k s : log_gamma g -> bessel ive -> k <> WrapNorm -> 0 <= s -> solved ive sA sK sB k (s / (s + 1)) -> good_density (density g ive k (par_of sA sK sB k s)).
Proof.
  intros Hg HB Hk Hs HS. assert (HR : 0 <= s / (s + 1) < 1). { split; [apply Rmult_le_pos; [easy|left; apply Rinv_0_lt_compat; lra]|]. apply (Rmult_lt_reg_r (s + 1)); [lra|]. unfold Rdiv. rewrite Rmult_assoc, Rinv_l by lra. lra. }
  destruct k; cbn [par_of]; cbn [solved] in HS.
  - now apply cos_density_ok.
  - now apply box_ok.
  - now apply mises_ok.
  - now apply poisson_ok.
  - now apply sech2_ok.
  - easy.
Qed.
Lemma density_coefficient g ive sA sK sB k s : log_gamma g -> bessel ive -> k <> WrapNorm -> k <> Sech2 -> 0 <= s -> solved ive sA sK sB k (s / (s + 1)) ->
  area (fun t => density g ive k (par_of sA sK sB k s) t * cos t) (- PI) PI (s / (s + 1)).
Proof.
  intros Hg HB Hk Hk2 Hs HS. assert (HR : 0 <= s / (s + 1) < 1). { split; [apply Rmult_le_pos; [easy|left; apply Rinv_0_lt_compat; lra]|]. apply (Rmult_lt_reg_r (s + 1)); [lra|]. unfold Rdiv. rewrite Rmult_assoc, Rinv_l by lra. lra. }
  destruct k; cbn [par_of]; cbn [solved] in HS.
  - now apply cos_coefficient.
  - now apply box_coefficient.
  - now apply mises_coefficient.
  - now apply poisson_coefficient.
  - easy.
  - easy.
Qed.
Lemma spreading_density g ive sA sK sB type theta0 method p theta1 w wc D1 i k : log_gamma g -> bessel ive -> kind_of type = Ok k -> k <> WrapNorm ->
  spreading g ive sA sK sB type theta0 method p theta1 w wc = Ok D1 -> theta1 <> [] -> (i < List.length (hd [] D1))%nat ->
  exists s f, spread_at method p (nth i w 0 / wc) s
    /\ (forall theta, exists D, spreading g ive sA sK sB type theta0 method p theta w wc = Ok D /\ column_of D theta i f)
    /\ (solved ive sA sK sB k (s / (s + 1)) -> circular_density f (direction_at theta0 i (nth i w 0 / wc))
        /\ (k <> Sech2 -> first_coefficient f (direction_at theta0 i (nth i w 0 / wc)) (s / (s + 1)))).
Proof.
  intros Hg HB Hk Hw E Hn Hi. destruct (column_facts _ _ _ _ _ _ _ _ _ _ _ _ _ _ E Hn Hi) as (s & k' & Hs & Hk' & F). rewrite Hk in Hk'. injection Hk' as <-. set (m := direction_at theta0 i (nth i w 0 / wc)) in *.
  exists s, (fun t => density g ive k (par_of sA sK sB k s) (wrap (t - m))). split; [easy|]. split; [|intros HS; split].
  - intros theta. destruct (F theta) as (D & ED & LD & FD). exists D. split; [easy|]. split; [easy|]. intros j Hj. rewrite (FD j Hj). destruct k; easy.
  - apply lift_density. destruct Hs. now apply density_circular.
  - intros Hk2. apply lift_coefficient. destruct Hs. now apply density_coefficient.
Qed.
