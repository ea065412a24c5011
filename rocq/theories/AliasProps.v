(* Theorems about the arrays of the caller (C76; tospecdata is in SpcovProps.v). *)
From Coq Require Import Reals List ZArith Permutation.
From Verif Require Import Base KdeModel AliasModel AliasSpec AliasProofs.
Import ListNotations.
Local Open Scope R_scope.

(* edf and edfcnd. *)

Theorem c76_edf : forall x method, exists y, snd (edf_call (Shared x) method) = Shared y /\ Permutation x y /\ in_order y.
Proof. exact (edf_after). Qed.
Print Assumptions c76_edf.

Theorem c76_edf_unchanged : forall x method, snd (edf_call (Shared x) method) = Shared x <-> in_order x.
Proof. exact (edf_unchanged). Qed.
Print Assumptions c76_edf_unchanged.

Theorem c76_edf_list : forall x method, snd (edf_call (Copied x) method) = Copied x.
Proof. exact (edf_list). Qed.
Print Assumptions c76_edf_list.

Theorem c76_edf_refuted : ~ (forall a method, snd (edf_call a method) = a).
Proof. exact (edf_changes). Qed.
Print Assumptions c76_edf_refuted.

Theorem c76_edfcnd : forall a c method, snd (edfcnd_call a c method) = a.
Proof. exact (edfcnd_unchanged). Qed.
Print Assumptions c76_edfcnd.

(* smoothn. *)

Theorem c76_smoothn : forall smooth weights x, (2 <= List.length x)%nat -> List.length weights = List.length x ->
  (forall i, (i < List.length x)%nat -> nth i x None <> None -> 0 <= nth i weights 0) ->
  exists y, snd (smoothn_call smooth weights (Shared x)) = Shared y /\ List.length y = List.length x /\
    forall i, (i < List.length x)%nat -> nth i y None = match nth i x None with Some r => Some r | None => Some 0 end.
Proof. exact (smoothn_after). Qed.
Print Assumptions c76_smoothn.

Theorem c76_smoothn_finite : forall smooth weights a, (forall v, In v (contents a) -> v <> None) -> snd (smoothn_call smooth weights a) = a.
Proof. exact (smoothn_finite). Qed.
Print Assumptions c76_smoothn_finite.

Theorem c76_smoothn_list : forall smooth weights x, snd (smoothn_call smooth weights (Copied x)) = Copied x.
Proof. exact (smoothn_list). Qed.
Print Assumptions c76_smoothn_list.

Theorem c76_smoothn_weights : forall smooth weights a i, (2 <= List.length (contents a))%nat -> List.length weights = List.length (contents a) -> (i < List.length (contents a))%nat -> nth i (contents a) None <> None -> nth i weights 0 < 0 ->
  smoothn_call smooth weights a = (Err ValueError, a).
Proof. exact (smoothn_weights). Qed.
Print Assumptions c76_smoothn_weights.

Theorem c76_smoothn_refuted : ~ (forall smooth weights a, snd (smoothn_call smooth weights a) = a).
Proof. exact (smoothn_changes). Qed.
Print Assumptions c76_smoothn_refuted.

(* simcond. *)

Theorem c76_simcond : forall finish prior data num_acf x unknown, (forall i, In i unknown -> (i < List.length x)%nat) ->
  exists y, snd (fst (simcond_call finish prior data num_acf (Shared x) (Some unknown))) = Shared y /\ missing_at unknown x y.
Proof. exact (simcond_observations). Qed.
Print Assumptions c76_simcond.

Theorem c76_simcond_kept : forall finish prior data num_acf xo, snd (fst (simcond_call finish prior data num_acf xo None)) = xo.
Proof. exact (simcond_kept). Qed.
Print Assumptions c76_simcond_kept.

Theorem c76_simcond_list : forall finish prior data num_acf x unknown, snd (fst (simcond_call finish prior data num_acf (Copied x) unknown)) = Copied x.
Proof. exact (simcond_list). Qed.
Print Assumptions c76_simcond_list.

Theorem c76_simcond_range : forall finish prior data num_acf xo unknown i, In i unknown -> (List.length (contents xo) <= i)%nat -> simcond_call finish prior data num_acf xo (Some unknown) = (Err IndexError, xo, data).
Proof. exact (simcond_range). Qed.
Print Assumptions c76_simcond_range.

Theorem c76_simcond_refuted : ~ (forall finish prior data num_acf xo unknown, snd (fst (simcond_call finish prior data num_acf xo unknown)) = xo).
Proof. exact (simcond_changes). Qed.
Print Assumptions c76_simcond_refuted.

Theorem c76_simcond_covariances : forall finish prior r0 rest num_acf xo u k, INR num_acf <= 3 / 10 * INR (List.length (contents xo)) ->
  In u (contents xo) -> u = None -> In k (contents xo) -> k <> None ->
  snd (simcond_call finish prior (r0 :: rest) num_acf xo None) = r0 * (100001 / 100000) :: rest.
Proof. exact (simcond_covariances). Qed.
Print Assumptions c76_simcond_covariances.

Theorem c76_simcond_object_refuted : ~ (forall finish prior data num_acf xo unknown, snd (simcond_call finish prior data num_acf xo unknown) = data).
Proof. exact (simcond_object). Qed.
Print Assumptions c76_simcond_object_refuted.

(* mctp2tc. *)

Theorem c76_mctp2tc : forall rest f utc lo hi k g i, let ntc := List.length (filter (fun u => if Rle_dec utc u then true else false) (linspace lo hi k)) in
  (1 < ntc)%nat -> (ntc < k)%nat -> (ntc < List.length f)%nat -> (i < List.length f)%nat ->
  let f' := snd (mctp2tc_call rest f utc lo hi k g) in let row := nth i f [] in let row' := nth i f' [] in
  List.length f' = List.length f /\ (total row = 0 -> row' = row) /\ (total row <> 0 -> total row' = 1 /\ forall j, nth j row' 0 = nth j row 0 / total row).
Proof. exact (mctp2tc_after). Qed.
Print Assumptions c76_mctp2tc.

Theorem c76_mctp2tc_range : forall rest f utc lo hi k g, let ntc := List.length (filter (fun u => if Rle_dec utc u then true else false) (linspace lo hi k)) in
  ((List.length f <= ntc)%nat -> mctp2tc_call rest f utc lo hi k g = (Err IndexError, f)) /\
  ((ntc < List.length f)%nat -> (ntc <= 1)%nat \/ (k <= ntc)%nat -> mctp2tc_call rest f utc lo hi k g = (Err ValueError, f)).
Proof. exact (mctp2tc_range). Qed.
Print Assumptions c76_mctp2tc_range.

Theorem c76_mctp2tc_refuted : ~ (forall rest f utc lo hi k g, snd (mctp2tc_call rest f utc lo hi k g) = f).
Proof. exact (mctp2tc_changes). Qed.
Print Assumptions c76_mctp2tc_refuted.

Example c76_levels_case : List.length (filter (fun u => if Rle_dec 0 u then true else false) (linspace (-1) 1 3)) = 2%nat.
Proof. exact (levels3). Qed.
