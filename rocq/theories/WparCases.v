(* A series with one whole wave: hypotheses and values. *)
From Coq Require Import Reals List ZArith Bool String Lra Lia.
From Verif Require Import Base CrossModel CrossSpec EcrossModel FilterModel WparModel WparSpec.
Import ListNotations.
Local Open Scope list_scope.
Local Open Scope R_scope.

Definition sea : list Z := [1; -1; -2; 2; 3; -1; -3; 1]%Z.
Definition clock : list R := [0; 1; 2; 3; 4; 5; 6; 7].
Lemma clock_up : ascending clock.
Proof.
  intros a b [H1 H2]. unfold instant. cbn in H2.
  do 8 (destruct b as [|b]; [do 8 (destruct a as [|a]; [cbn; lra || lia|]); lia|]). lia.
Qed.
Lemma sea_crossings : findcross Numba sea 0 (Some "tw"%string) = Ok [0; 2; 4; 6]%nat.
Proof. reflexivity. Qed.
Lemma sea_found : findtc Numba sea 0 (Some "tw"%string) = Ok ([2; 4; 6], [0; 2; 4; 6])%nat.
Proof. reflexivity. Qed.
Lemma sea_waves : wave_parameters Numba sea clock =
  Ok {| Ac := [3]; At := [2; 3]; Hu := [6]; Hd := [5]; Tu := [17 / 4]; Td := [17 / 4]; Tcf := [3 / 2]; Tcb := [3 / 4] |}.
Proof.
  unfold wave_parameters. rewrite sea_found. cbn [clock sampling_period geti nth_error bind fst snd pick sea map]. unfold ecross1, step2.
  cbn -[INR Rdiv Req_EM_T last].
  match goal with |- context [Req_EM_T ?a 0] => destruct (Req_EM_T a 0) as [E|_]; [exfalso; lra|] end. match goal with |- context [Req_EM_T ?a 0] => destruct (Req_EM_T a 0) as [E|_]; [exfalso; lra|] end.
  f_equal. f_equal; repeat (f_equal; try lra).
Qed.
Lemma sea_steep : forall g, exists H, wave_height_steepness Numba sea clock (Name "Vcb"%string) g = Ok (H, [6]) /\ nth 0 H 0 = 4.
Proof.
  intros g. unfold wave_height_steepness. rewrite sea_found. cbn [clock sampling_period geti nth_error bind fst snd pick sea map]. unfold step2.
  cbn -[INR Rdiv Req_EM_T]. match goal with |- context [Req_EM_T ?a 0] => destruct (Req_EM_T a 0) as [E|_]; [exfalso; lra|] end. eexists. split; [do 2 f_equal; f_equal; lra|]. cbn [nth]. lra.
Qed.
