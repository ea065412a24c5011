(* Model of CyclePairs.amplitudes and CyclePairs.damage (src/wafo/objects.py:676-721) over the real numbers.  A cycle is the pair (args, data);
   get_minima_and_maxima (723-732) is modelled in CyclesModel. *)
From Coq Require Import Reals List ZArith.
From Verif Require Import Base.
Import ListNotations.
Local Open Scope R_scope.

(* a ** b for a >= 0.  0 ** b for b < 0 (numpy: inf, with a warning) is excluded in the theorems *)
Definition power (a b : R) : R := if Req_EM_T a 0 then (if Req_EM_T b 0 then 1 else 0) else Rpower a b.
(* 676-677 *)
Definition amplitudes (cp : list (R * R)) : list R := map (fun c => (snd c - fst c) / 2) cp.
(* np.sum *)
Fixpoint total (l : list R) : R := match l with [] => 0 | a :: l' => a + total l' end.
(* 720-721; beta is a list *)
Definition damage (cp : list (R * R)) (beta : list R) (K : R) : list R :=
  let amp := map Rabs (amplitudes cp) in
  map (fun b => K * total (map (fun a => power a b) amp)) beta.
(* CyclePairs(M, m): the result of cycle_pairs (CyclesModel) as cycles (1235: data = M, args = m) *)
Definition cycles_of (p : list Z * list Z) : list (R * R) := combine (map IZR (snd p)) (map IZR (fst p)).
