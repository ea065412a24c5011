From Coq Require Import Reals List Lra Lia Bool Arith ZArith.
From Verif Require Import Base PolyModel TransModel PolySpec ArSpec ArProofs2 CsimProofs KernelProofs7 KdeModel ChebModel ChebSpec ChebProofs3 ProcProofs Sg2Spec Sg2Proofs Sg2Proofs2 PadeModel PadeSpec PadeProofs PadeProofs2.
Import ListNotations.
Local Open Scope R_scope.
Set Bullet Behavior "Strict Subproofs".

Lemma lsq_best pinv fs m k a b xs e num den : is_inverse pinv -> padefitlsq pinv (Values fs) m k a b (Some xs) e = Ok (num, den) ->
  List.length xs = (8 * (m + k + 1))%nat /\ List.length fs = List.length xs /\ List.length num = (m + 1)%nat /\ List.length den = (k + 1)%nat /\ peval den 0 = 1 /\
  exists d num1 den1 d1, deviation (List.length xs) (at_R xs) (at_R fs) num den d /\
    List.length num1 = (m + 1)%nat /\ List.length den1 = (k + 1)%nat /\ linear_fit (List.length xs) (at_R xs) (at_R fs) num1 den1 /\ deviation (List.length xs) (at_R xs) (at_R fs) num1 den1 d1 /\ d <= d1.
Proof.
  intros MP H. destruct (lsq_inv _ _ _ _ _ _ _ _ _ _ MP H) as (xs' & E & L1 & L2 & d & (K1 & K2 & K3 & K4) & num1 & den1 & d1 & F). cbn in E. injection E as <-. cbn [sampled snd fst] in *. rewrite L1, L2.
  repeat (split; [assumption || reflexivity|]). exists d, num1, den1, d1. split; [exact K4|exact F].
Qed.
Lemma at_in l i : (i < List.length l)%nat -> In (at_R l i) l. Proof. apply nth_In. Qed.
Lemma in_at l t : In t l -> exists i, (i < List.length l)%nat /\ at_R l i = t. Proof. intros H. apply (In_nth l t 0) in H. exact H. Qed.
Lemma lsq_exact pinv fs m k a b xs e num den P Q : is_inverse pinv -> padefitlsq pinv (Values fs) m k a b (Some xs) e = Ok (num, den) -> NoDup xs ->
  (List.length P <= m + 1)%nat -> (List.length Q <= k + 1)%nat -> peval Q 0 <> 0 -> (forall i, (i < List.length xs)%nat -> peval Q (at_R xs i) <> 0 /\ at_R fs i = peval P (at_R xs i) / peval Q (at_R xs i)) ->
  same_quotient num den P Q.
Proof.
  intros MP H Nd LP LQ Q0 V. destruct (lsq_best _ _ _ _ _ _ _ _ _ _ MP H) as (L1 & L2 & Ln & Ld & D0 & d & num1 & den1 & d1 & [Dev _] & Ln1 & Ld1 & [D10 Fit] & [Dev1 [i1 [Hi1 E1]]] & Le).
  (* the first fit has no residual *)
  set (s := / peval Q 0). set (P' := rev (map (fun u => s * nth u (rev P) 0 * (if (u <? List.length P)%nat then 1 else 0)) (seq 0 (m + 1)))). set (Q' := rev (map (fun u => s * nth u (rev Q) 0 * (if (u <? List.length Q)%nat then 1 else 0)) (seq 0 (k + 1)))).
  assert (EP : forall x, peval P' x = s * peval P x).
  { intros x. unfold P'. rewrite poly_list, (list_poly P), (poly_more (List.length P) (m + 1)) by exact LP. rewrite poly_scal. apply poly_ext. intros u Hu. destruct (u <? List.length P)%nat; ring. }
  assert (EQ : forall x, peval Q' x = s * peval Q x).
  { intros x. unfold Q'. rewrite poly_list, (list_poly Q), (poly_more (List.length Q) (k + 1)) by exact LQ. rewrite poly_scal. apply poly_ext. intros u Hu. destruct (u <? List.length Q)%nat; ring. }
  assert (R0 : residual (List.length xs) (at_R xs) (at_R fs) num1 den1 <= 0).
  { eapply Rle_trans; [apply (Fit P' Q')|].
    - unfold P'. rewrite rev_length, map_length, seq_length. lia.
    - unfold Q'. rewrite rev_length, map_length, seq_length. lia.
    - rewrite EQ. unfold s. now apply Rinv_l.
    - apply Req_le. unfold residual. rewrite (sum_ext _ _ (fun _ => 0)); [apply sum_0|]. intros i Hi. destruct (V i Hi) as [Vq ->]. rewrite EP, EQ. field. exact Vq. }
  assert (Z1 : forall i, (i < List.length xs)%nat -> peval num1 (at_R xs i) - at_R fs i * peval den1 (at_R xs i) = 0).
  { apply (sum_squares0 (List.length xs) (fun i => peval num1 (at_R xs i) - at_R fs i * peval den1 (at_R xs i))). unfold residual in R0. rewrite (sum_ext _ _ (fun i => (peval num1 (at_R xs i) - at_R fs i * peval den1 (at_R xs i)) * (peval num1 (at_R xs i) - at_R fs i * peval den1 (at_R xs i)))) in R0 by (intros; ring).
    apply Rle_antisym; [exact R0|]. apply sum_nonneg. intros i Hi. apply Rle_0_sqr. }
  assert (d1 = 0).
  { rewrite <- E1. destruct (Dev1 i1 Hi1) as [Nz _]. replace (peval num1 (at_R xs i1)) with (at_R fs i1 * peval den1 (at_R xs i1)) by (pose proof (Z1 i1 Hi1); lra). replace (at_R fs i1 * peval den1 (at_R xs i1) / peval den1 (at_R xs i1) - at_R fs i1) with 0 by (field; exact Nz). apply Rabs_R0. }
  (* so has the result *)
  assert (Z : forall i, (i < List.length xs)%nat -> peval num (at_R xs i) * peval Q (at_R xs i) = peval P (at_R xs i) * peval den (at_R xs i)).
  { intros i Hi. destruct (Dev i Hi) as [Nz B]. destruct (V i Hi) as [Vq Vf]. assert (Z : peval num (at_R xs i) / peval den (at_R xs i) - at_R fs i = 0).
    { destruct (Req_dec (peval num (at_R xs i) / peval den (at_R xs i) - at_R fs i) 0) as [Z|Z]; [exact Z|]. apply Rabs_pos_lt in Z. lra. }
    rewrite Vf in Z. apply (Rmult_eq_reg_r (/ peval den (at_R xs i) * / peval Q (at_R xs i))); [|apply Rmult_integral_contrapositive_currified; apply Rinv_neq_0_compat; assumption].
    transitivity (peval num (at_R xs i) / peval den (at_R xs i)); [field; split; assumption|]. transitivity (peval P (at_R xs i) / peval Q (at_R xs i)); [lra|field; split; assumption]. }
  intros x. destruct (poly_mul (List.length num) (fun u => nth u (rev num) 0) (List.length Q) (fun u => nth u (rev Q) 0)) as [h1 H1]. destruct (poly_mul (List.length P) (fun u => nth u (rev P) 0) (List.length den) (fun u => nth u (rev den) 0)) as [h2 H2].
  destruct (poly_as_more (List.length num + List.length Q - 1) (m + k + 1) h1 ltac:(lia)) as [g1 G1]. destruct (poly_as_more (List.length P + List.length den - 1) (m + k + 1) h2 ltac:(lia)) as [g2 G2].
  rewrite (list_poly num), (list_poly Q), (list_poly P), (list_poly den), H1, H2, G1, G2. apply Rminus_diag_uniq. rewrite poly_minus.
  apply (many_roots (m + k + 1) (fun u => g1 u - g2 u) xs Nd); [lia|]. intros t Ht. destruct (in_at xs t Ht) as [i [Hi <-]].
  fold (poly (m + k + 1) (fun u => g1 u - g2 u) (at_R xs i)). rewrite <- poly_minus, <- G1, <- G2, <- H1, <- H2, <- !list_poly. pose proof (Z i Hi). lra.
Qed.
(* functions are sampled at Chebyshev points *)
Lemma lsq_points pinv m k a b e : a < b -> exists xs, List.length xs = (8 * (m + k + 1))%nat /\ NoDup xs /\ (forall t, In t xs -> a <= t <= b) /\
  forall f, padefitlsq pinv (Function f) m k a b None e = padefitlsq pinv (Values (map f xs)) m k a b (Some xs) e.
Proof.
  intros Hab. assert (K : exists t, points (8 * (m + k + 1)) e = Ok t /\ List.length t = (8 * (m + k + 1))%nat /\ NoDup t /\ forall r, In r t -> -1 <= r <= 1).
  { unfold points. destruct e.
    - destruct (chebextr_spec (8 * (m + k + 1) - 1) ltac:(lia)) as (L & Inc & E0 & E1 & _). eexists. split; [reflexivity|]. assert (L' : List.length (chebextr (8 * (m + k + 1) - 1)) = (8 * (m + k + 1))%nat) by lia. split; [exact L'|]. split.
      + apply increasing_NoDup. intros i j Hij Hj. apply Inc; lia.
      + intros r Hr. unfold chebextr in Hr. apply in_map_iff in Hr. destruct Hr as [i [<- _]]. pose proof (COS_bound (PI * INR i / INR (8 * (m + k + 1) - 1))). lra.
    - destruct (chebroot_1 (8 * (m + k + 1))) as [t [E (L & Inc & Rg & _)]]. exists t. split; [exact E|]. split; [exact L|]. split; [apply increasing_NoDup; rewrite L; exact Inc|]. intros r Hr. specialize (Rg r Hr). lra. }
  destruct K as (t & E & L & N & Rg). exists (map (fun t => map_to_interval t a b) t). rewrite map_length. split; [exact L|]. split; [|split].
  - apply FinFun.Injective_map_NoDup; [|exact N]. intros u v. unfold map_to_interval. intros Ev. apply (Rmult_eq_reg_r (b - a)); lra.
  - intros y Hy. apply in_map_iff in Hy. destruct Hy as [r [<- Hr]]. specialize (Rg r Hr). unfold map_to_interval. split; nra.
  - intros f. unfold padefitlsq. cbv zeta. rewrite E. reflexivity.
Qed.
Lemma lsq_refused pinv fs m k a b xs e : List.length xs <> (8 * (m + k + 1))%nat \/ List.length fs <> (8 * (m + k + 1))%nat -> padefitlsq pinv (Values fs) m k a b (Some xs) e = Err ValueError.
Proof.
  intros H. unfold padefitlsq. cbv zeta. cbn [bind]. destruct (Nat.eqb_spec (List.length xs) (8 * (m + k + 1))), (Nat.eqb_spec (List.length fs) (8 * (m + k + 1))); try reflexivity. destruct H; contradiction.
Qed.
Lemma lsq_documented pinv fs m k a b xs e : List.length fs = List.length xs -> (List.length xs > (m + k + 1) * 8)%nat -> padefitlsq pinv (Values fs) m k a b (Some xs) e = Err ValueError.
Proof. intros _ H. apply lsq_refused. left. lia. Qed.

(* ---- a solver ---- *)
Lemma solver_exists : exists solve, solves solve.
Proof.
  set (good := fun n (A : nat -> nat -> R) (b y : nat -> R) => forallb (fun r => if Req_EM_T (sum_to n (fun j => A r j * y j)) (b r) then true else false) (seq 0 n)).
  set (cand := fun n (A : nat -> nat -> R) (b : nat -> R) j => sum_to n (fun k => greville n n A j k * b k)).
  exists (fun n A b => if good n A b (cand n A b) then Ok (cand n A b) else Err ValueError).
  assert (G : forall n A b y, good n A b y = true <-> forall r, (r < n)%nat -> sum_to n (fun j => A r j * y j) = b r).
  { intros n A b y. unfold good. rewrite forallb_forall. split.
    - intros H r Hr. specialize (H r). destruct (Req_EM_T (sum_to n (fun j => A r j * y j)) (b r)) as [E|E]; [exact E|]. discriminate H. apply in_seq. lia.
    - intros H r Hr. apply in_seq in Hr. destruct (Req_EM_T (sum_to n (fun j => A r j * y j)) (b r)) as [E|E]; [reflexivity|]. exfalso. apply E. apply H. lia. }
  split.
  - intros n A b y H. destruct (good n A b (cand n A b)) eqn:C; [|discriminate]. injection H as <-. now apply G.
  - intros n A b y H _. exists (cand n A b). replace (good n A b (cand n A b)) with true; [reflexivity|]. symmetry. apply G. exact (consistent n n A _ b y (greville_inverse n n A) H).
Qed.
