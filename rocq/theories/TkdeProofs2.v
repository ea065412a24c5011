From Coq Require Import Reals Lra Lia List Bool Psatz String.
From Coquelicot Require Import Coquelicot.
From Verif Require Import Base PolyModel FilterModel GridSpec GridProofs5 KdeModel KdeSpec KdeProofs2 KdeProofs5 SeaSpec SeaProofs KernelModel KernelSpec KernelProofs KernelProofs2 KernelProofs6 KernelProofs7 KernelCases TkdeModel TkdeSpec.
Import ListNotations.
Local Open Scope R_scope.

Lemma diag_diagonal h : diag (map (fun v => 1 / v) h) = diagonal (map Rinv h).
Proof.
  unfold diag, diagonal. rewrite !map_length. apply map_ext_in. intros i Hi. apply map_ext_in. intros j Hj. destruct (Nat.eqb i j); [|reflexivity]. unfold at_R. apply in_seq in Hi. rewrite !(nth_indep _ 0 (1 / 0)) by (rewrite map_length; lia). rewrite (map_nth (fun v => 1 / v)). rewrite (nth_indep _ (1 / 0) (/ 0)) by (rewrite map_length; lia). rewrite map_nth. unfold Rdiv. ring.
Qed.
(* the kernels of the table are positive at zero *)
Lemma zeros_sum (f : R -> R) v : f 0 = 0 -> Forall (fun x => x = 0) v -> npsum (map f v) = 0.
Proof. intros H0. induction 1 as [|x v E H IH]; unfold npsum in *; cbn [map fold_right]; [reflexivity|]. rewrite IH. subst x. rewrite H0. ring. Qed.
Lemma zeros_prod (f : R -> R) v : 0 < f 0 -> Forall (fun x => x = 0) v -> 0 < prodl (map f v).
Proof. intros H0. induction 1 as [|x v E H IH]; unfold prodl in *; cbn [map fold_right]; [lra|]. subst x. now apply Rmult_lt_0_compat. Qed.
Lemma kernel_zero key k s name v : In (key, (k, s, name)) mkernel_dict -> Forall (fun x => x = 0) v -> 0 < kernel k v.
Proof.
  intros HI Hv.
  assert (C : (exists p, k = Multi p 1) \/ (exists p, k = Product p 1) \/ k = Rectangular 1 \/ k = Triangular 1 \/ (exists r, k = Laplace r) \/ (exists r, k = Logistic r) \/ k = Gaussian 4).
  { cbn in HI. repeat (destruct HI as [HI|HI]; [inversion HI; subst; eauto 12|]). destruct HI. }
  destruct C as [(p & ->)|[(p & ->)|[->|[->|[(r & ->)|[(r & ->)| ->]]]]]]; cbn [kernel].
  - rewrite zeros_sum; [|ring|easy]. apply pow_lt. rewrite Rmax_right; lra.
  - apply zeros_prod; [|easy]. apply pow_lt. rewrite Rmax_right; lra.
  - replace (forallb _ v) with true; [lra|]. symmetry. apply forallb_forall. rewrite Forall_forall in Hv. intros x Hx. rewrite (Hv x Hx). destruct (Rle_dec (Rabs 0) 1) as [_|N]; [reflexivity|]. rewrite Rabs_R0 in N. lra.
  - apply zeros_prod; [|easy]. rewrite Rabs_R0, Rmax_right; lra.
  - apply exp_pos.
  - apply zeros_prod; [|easy]. rewrite exp_0. lra.
  - apply exp_pos.
Qed.
Lemma minus_self x : Forall (fun v => v = 0) (minus_vec x x).
Proof. induction x as [|a x IH]; cbn; constructor; [ring|exact IH]. Qed.
Lemma sum_one_pos (F : nat -> R) n i : (i < n)%nat -> (forall j, (j < n)%nat -> 0 <= F j) -> 0 < F i -> 0 < sumR (map F (seq 0 n)).
Proof.
  intros Hi HF Hp. assert (G : forall is, In i is -> (forall j, In j is -> (j < n)%nat) -> 0 < sumR (map F is)).
  { induction is as [|j is IH]; intros Hin Hb; [destruct Hin|]. unfold sumR in *. cbn [map fold_right]. assert (N : forall l, (forall j, In j l -> (j < n)%nat) -> 0 <= fold_right Rplus 0 (map F l)). { clear -HF. induction l as [|j l IH]; intros H; cbn [map fold_right]; [lra|]. apply Rplus_le_le_0_compat; [apply HF, H; now left|apply IH; intros; apply H; now right]. }
    destruct Hin as [->|Hin]. - specialize (N is ltac:(intros; apply Hb; now right)). lra. - specialize (IH Hin ltac:(intros; apply Hb; now right)). specialize (HF j (Hb j ltac:(now left))). lra. }
  apply G; [apply in_seq; lia|]. intros j Hj. apply in_seq in Hj. lia.
Qed.
(* the pilot estimate is positive at the data *)
Lemma estimate_at_data g key k s name c X hs lam x : In (key, (k, s, name)) mkernel_dict -> norm_factor g k (List.length hs) (List.length X) = Ok c -> hs <> [] -> X <> [] ->
  Forall (fun h => 0 < h) hs -> List.length lam = List.length X -> Forall (fun l => 0 < l) lam -> Forall (fun p => List.length p = List.length hs) X -> In x X -> 0 < estimate (my_kde k c X hs lam) (repeat 1 (List.length X)) 0 x.
Proof.
  intros HI HC Hh HX HF HL HFl HFX Hx. assert (Hd : (1 <= List.length hs)%nat) by (destruct hs; [congruence|cbn; lia]). pose proof (factor_pos g _ _ _ _ _ _ c HI Hd HC) as Cp. pose proof (prodl_hs_pos hs HF) as PH. assert (HN : 0 < INR (List.length X)) by (apply lt_0_INR; destruct X; [congruence|cbn; lia]).
  unfold estimate, my_kde. cbn [dataset inv_hs lambda_ KdeModel.kernel KdeModel.norm_factor]. apply Rdiv_lt_0_compat; [|apply Rmult_lt_0_compat; [apply Rmult_lt_0_compat|]; lra].
  apply (In_nth _ _ []) in Hx as (i & Hi & <-). assert (Pl : forall j, (j < List.length X)%nat -> 0 < nth j lam 0). { intros j Hj. rewrite Forall_forall in HFl. apply HFl. apply nth_In. lia. }
  apply (sum_one_pos _ _ i); [exact Hi| |].
  - intros j Hj. rewrite nth_repeat_1 by easy. cbn [power_sum]. apply Rmult_le_pos; [|apply kernel_nonneg]. rewrite Rmult_1_r. left. apply Rdiv_lt_0_compat; [lra|]. apply pow_lt. now apply Pl.
  - rewrite nth_repeat_1 by easy. cbn [power_sum]. apply Rmult_lt_0_compat; [rewrite Rmult_1_r; apply Rdiv_lt_0_compat; [lra|]; apply pow_lt; now apply Pl|]. apply (kernel_zero key k s name); [easy|].
    apply Forall_forall. intros v Hv. unfold apply_matrix in Hv. apply in_map_iff in Hv as (r & <- & _).
    assert (Z : Forall (fun v => v = 0) (map (fun v => v / nth i lam 0) (minus_vec (nth i X []) (nth i X [])))). { apply Forall_forall. intros u Hu. apply in_map_iff in Hu as (w & <- & Hw). pose proof (minus_self (nth i X [])) as M. rewrite Forall_forall in M. rewrite (M w Hw). unfold Rdiv. ring. }
    revert Z. generalize (map (fun v => v / nth i lam 0) (minus_vec (nth i X []) (nth i X []))). clear. induction r as [|a r IH]; intros [|b z] Z; cbn; try reflexivity. inversion Z; subst. rewrite IH by easy. ring.
Qed.
(* the bandwidths *)
Lemma replace_spec store gs X h : List.length (replace_negatives store gs X h) = List.length h /\ forall i, (i < List.length h)%nat -> nth i (replace_negatives store gs X h) 0 = if Rle_dec (nth i h 0) 0 then store (gs (row X i)) else nth i h 0.
Proof.
  unfold replace_negatives. split; [now rewrite map_length, seq_length|]. intros i Hi. set (F := fun i => if Rle_dec (at_R h i) 0 then store (gs (row X i)) else at_R h i). rewrite (nth_indep _ 0 (F O)) by (rewrite map_length, seq_length; lia). rewrite map_nth, seq_nth by lia. reflexivity.
Qed.
Lemma nth_repeat_a (a : R) n i : (i < n)%nat -> nth i (repeat a n) 0 = a.
Proof. revert i. induction n as [|n IH]; intros [|i] H; try lia; cbn; [reflexivity|]. apply IH. lia. Qed.
Definition hs_of (store : R -> R) (gs : list R -> R) (d : nat) (X : list (list R)) (hs : option (list R)) : res (list R * option (list R)) :=
  match hs with
  | None => let* p := check_hs (fun v => v) gs X d (map (fun i => gs (row X i)) (seq 0 d)) in Ok (fst p, None)
  | Some h => let* p := check_hs store gs X d h in Ok (fst p, Some (snd p)) end.
Lemma check_spec store gs d X h : List.length h = 1%nat \/ List.length h = d -> exists h' c, check_hs store gs X d h = Ok (h', c) /\ List.length h' = d /\
  (forall i, (i < d)%nat -> nth i h' 0 = if Rle_dec (match h with [a] => a | _ => nth i h 0 end) 0 then (if (List.length h =? 1)%nat then gs (row X i) else store (gs (row X i))) else match h with [a] => a | _ => nth i h 0 end).
Proof.
  intros [H|H].
  - destruct h as [|a [|]]; try discriminate. cbn [check_hs]. eexists; eexists; split; [reflexivity|]. destruct (replace_spec (fun v => v) gs X (repeat a d)) as (L & E). rewrite repeat_length in *. split; [easy|]. intros i Hi. rewrite E by easy. rewrite nth_repeat_a by easy. reflexivity.
  - destruct h as [|a [|b h]].
    + cbn in H. subst. cbn. eexists; eexists; split; [reflexivity|]. split; [reflexivity|]. intros i Hi. lia.
    + cbn in H. subst. cbn [check_hs repeat]. eexists; eexists; split; [reflexivity|]. destruct (replace_spec (fun v => v) gs X [a]) as (L & E). split; [easy|]. intros [|i] Hi; [|lia]. rewrite E by easy. reflexivity.
    + unfold check_hs. rewrite (proj2 (Nat.eqb_eq _ _) H). eexists; eexists; split; [reflexivity|]. destruct (replace_spec store gs X (a :: b :: h)) as (L & E). rewrite H in *. split; [easy|]. intros i Hi. rewrite E by easy. replace (d =? 1)%nat with false; [reflexivity|]. symmetry. apply Nat.eqb_neq. cbn in H. lia.
Qed.
Lemma hs_of_spec gs d X hs : fits d hs -> (forall i, (i < d)%nat -> 0 < gs (row X i)) -> exists h' c, hs_of (fun v => v) gs d X hs = Ok (h', c) /\ List.length h' = d /\ (forall i, (i < d)%nat -> nth i h' 0 = if Rle_dec (asked hs i) 0 then gs (row X i) else asked hs i) /\ Forall (fun h => 0 < h) h'.
Proof.
  intros Hf Hg. assert (P : forall h', List.length h' = d -> (forall i, (i < d)%nat -> nth i h' 0 = if Rle_dec (asked hs i) 0 then gs (row X i) else asked hs i) -> Forall (fun h => 0 < h) h').
  { intros h' L E. apply Forall_forall. intros v Hv. apply (In_nth _ _ 0) in Hv as (i & Hi & <-). rewrite E by lia. destruct (Rle_dec (asked hs i) 0); [apply Hg; lia|lra]. }
  destruct hs as [h|]; cbn [hs_of].
  - destruct (check_spec (fun v => v) gs d X h Hf) as (h' & c & E & L & V). rewrite E. cbn. exists h', (Some c). split; [reflexivity|]. assert (V' : forall i, (i < d)%nat -> nth i h' 0 = if Rle_dec (asked (Some h) i) 0 then gs (row X i) else asked (Some h) i). { intros i Hi. rewrite V by easy. unfold asked. destruct h as [|a [|b h]]; cbn; try reflexivity; destruct (Rle_dec _ 0); reflexivity. } split; [easy|]. split; [exact V'|now apply P].
  - set (h := map (fun i => gs (row X i)) (seq 0 d)). assert (Lh : List.length h = d) by (unfold h; now rewrite map_length, seq_length). destruct (check_spec (fun v => v) gs d X h (or_intror Lh)) as (h' & c & E & L & V). rewrite E. cbn. exists h', None. split; [reflexivity|].
    assert (V' : forall i, (i < d)%nat -> nth i h' 0 = if Rle_dec (asked None i) 0 then gs (row X i) else asked None i).
    { intros i Hi. rewrite V by easy. cbn [asked]. destruct (Rle_dec 0 0) as [_|N]; [|lra]. assert (N : nth i h 0 = gs (row X i)). { unfold h. rewrite (nth_indep _ 0 (gs (row X 0))) by (rewrite map_length, seq_length; lia). rewrite (map_nth (fun i => gs (row X i))), seq_nth by lia. reflexivity. }
      assert (M : match h with [a] => a | _ => nth i h 0 end = gs (row X i)). { destruct h as [|a [|b t]]; try exact N. cbn in Lh. destruct i as [|i]; [exact N|lia]. } rewrite M. destruct (Rle_dec _ 0) as [Q|Q]; [specialize (Hg i Hi); lra|reflexivity]. }
    split; [easy|]. split; [exact V'|now apply P].
Qed.
(* the local factors *)
Definition lambdas (alpha : R) (f : list R) : list R := if Rlt_dec 0 alpha then map (fun v => Rpower (v / exp (npsum (map ln f) / INR (List.length f))) (- alpha)) f else repeat 1 (List.length f).
Lemma built g key k s name c d X hs alpha gs : In (key, (k, s, name)) mkernel_dict -> norm_factor g k d (List.length X) = Ok c -> (1 <= d)%nat -> X <> [] -> Forall (fun p => List.length p = d) X -> fits d hs -> (forall i, (i < d)%nat -> 0 < gs (row X i)) ->
  exists h' c' f, kde_init (fun v => v) gs (kernel k) (norm_factor g k) d X hs alpha = Ok (my_kde k c X h' (lambdas alpha f), c') /\ List.length h' = d /\ Forall (fun h => 0 < h) h' /\ (forall i, (i < d)%nat -> nth i h' 0 = if Rle_dec (asked hs i) 0 then gs (row X i) else asked hs i)
    /\ f = map (estimate (my_kde k c X h' (repeat 1 (List.length X))) (repeat 1 (List.length X)) 0) X /\ Forall (fun v => 0 < v) f.
Proof.
  intros HI HC Hd HX HFX Hf Hg. destruct (hs_of_spec gs d X hs Hf Hg) as (h' & c' & E & L & V & P). exists h', c', (map (estimate (my_kde k c X h' (repeat 1 (List.length X))) (repeat 1 (List.length X)) 0) X).
  assert (Q1 : Forall (fun l => 0 < l) (repeat 1 (List.length X))). { apply Forall_forall. intros v Hv. apply repeat_spec in Hv. lra. }
  split; [|split; [easy|split; [easy|split; [easy|split; [reflexivity|]]]]].
  - unfold kde_init. fold (hs_of (fun v => v) gs d X hs). rewrite E. cbn [bind fst snd]. rewrite HC. cbn [bind]. rewrite diag_diagonal. unfold set_alpha. cbn [dataset inv_hs KdeModel.kernel KdeModel.norm_factor]. unfold lambdas. destruct (Rlt_dec 0 alpha) as [A|A].
    + change (Kde X (diagonal (map Rinv h')) (repeat 1 (List.length X)) (kernel k) (prodl h' * INR (List.length X) * c)) with (my_kde k c X h' (repeat 1 (List.length X))). rewrite eval_points_value; [|apply repeat_length|apply repeat_length|]. 2:{ intros p Hp. unfold my_kde. cbn [inv_hs]. rewrite diagonal_length, map_length, L. rewrite Forall_forall in HFX. now apply HFX. }
      cbn [bind]. reflexivity.
    + rewrite map_length. reflexivity.
  - apply Forall_forall. intros v Hv. apply in_map_iff in Hv as (x & <- & Hx). assert (h' <> []) by (intros ->; cbn in L; lia). refine (estimate_at_data g key k s name c X h' _ x HI _ _ HX P _ Q1 _ Hx); [now rewrite L|easy|apply repeat_length|rewrite L; exact HFX].
Qed.
Lemma lambdas_pos alpha f : Forall (fun v => 0 < v) (lambdas alpha f).
Proof.
  unfold lambdas. apply Forall_forall. intros v Hv. destruct (Rlt_dec 0 alpha); [apply in_map_iff in Hv as (u & <- & _); apply exp_pos|apply repeat_spec in Hv; lra].
Qed.
Lemma lambdas_length alpha f : List.length (lambdas alpha f) = List.length f.
Proof. unfold lambdas. destruct (Rlt_dec 0 alpha); [apply map_length|apply repeat_length]. Qed.
Lemma npsum_cons a l : npsum (a :: l) = a + npsum l.
Proof. reflexivity. Qed.
Lemma prodl_cons a l : prodl (a :: l) = a * prodl l.
Proof. reflexivity. Qed.
Lemma geometric f : f <> [] -> Forall (fun v => 0 < v) f -> exp (npsum (map ln f) / INR (List.length f)) ^ List.length f = prodl f.
Proof.
  intros Hn H. assert (E : exp (npsum (map ln f)) = prodl f). { clear Hn. induction H as [|v f Hv H IH]; [apply exp_0|]. cbn [map]. rewrite npsum_cons, prodl_cons, exp_plus, IH, exp_ln by easy. reflexivity. } rewrite <- E, <- Rpower_pow by apply exp_pos. unfold Rpower. rewrite ln_exp. f_equal. field. apply not_0_INR. destruct f; [congruence|cbn; lia].
Qed.
Lemma lambdas_one alpha f : f <> [] -> Forall (fun v => 0 < v) f -> prodl (lambdas alpha f) = 1.
Proof.
  intros Hn Hf. unfold lambdas. destruct (Rlt_dec 0 alpha) as [A|A].
  - pose proof (geometric f Hn Hf) as G. set (m := exp (npsum (map ln f) / INR (List.length f))) in *. assert (Hm : 0 < m) by apply exp_pos.
    assert (E : prodl (map (fun v => Rpower (v / m) (- alpha)) f) = Rpower (prodl f / m ^ List.length f) (- alpha)).
    { clear G Hn. assert (PP : forall l, Forall (fun v => 0 < v) l -> 0 < prodl l). { induction 1; [unfold prodl; cbn; lra|]. rewrite prodl_cons. now apply Rmult_lt_0_compat. }
      clearbody m. induction Hf as [|v f Hv Hf IH]; cbn [map List.length pow]. - unfold prodl. cbn. replace (1 / 1) with 1 by field. unfold Rpower. rewrite ln_1, Rmult_0_r, exp_0. reflexivity.
      - rewrite !prodl_cons, IH. rewrite Rpower_mult_distr; [|apply Rdiv_lt_0_compat; easy|]. 2:{ apply Rdiv_lt_0_compat; [now apply PP|now apply pow_lt]. } f_equal. field. split; [apply pow_nonzero; lra|lra]. }
    rewrite E, G. assert (0 < prodl f). { clear -Hf. induction Hf; [unfold prodl; cbn; lra|]. rewrite prodl_cons. now apply Rmult_lt_0_compat. } unfold Rdiv. rewrite Rinv_r by lra. unfold Rpower. now rewrite ln_1, Rmult_0_r, exp_0.
  - clear. induction (List.length f) as [|n IH]; [reflexivity|]. cbn [repeat]. rewrite prodl_cons, IH. ring.
Qed.
Lemma lambdas_order alpha f i j : 0 <= alpha -> Forall (fun v => 0 < v) f -> (i < List.length f)%nat -> (j < List.length f)%nat -> nth i f 0 <= nth j f 0 -> nth j (lambdas alpha f) 0 <= nth i (lambdas alpha f) 0.
Proof.
  intros Ha Hf Hi Hj H. unfold lambdas. destruct (Rlt_dec 0 alpha) as [A|A]; [|rewrite !nth_repeat_1 by easy; lra]. set (m := exp (npsum (map ln f) / INR (List.length f))). assert (Hm : 0 < m) by apply exp_pos. set (F := fun v => Rpower (v / m) (- alpha)). rewrite (nth_indep _ 0 (F 0)), (nth_indep (map F f) 0 (F 0)) by (rewrite map_length; lia). rewrite !map_nth. unfold F. rewrite !Rpower_Ropp. rewrite Forall_forall in Hf. assert (0 < nth i f 0) by (apply Hf; now apply nth_In). apply Rinv_le_contravar; [apply exp_pos|]. apply Rle_Rpower_l; [easy|]. split; [apply Rdiv_lt_0_compat; easy|]. apply Rmult_le_compat_r; [left; now apply Rinv_0_lt_compat|easy].
Qed.
