From Coq Require Import Reals List ZArith String Ascii Bool Lra Lia.
From Coquelicot Require Import Coquelicot.
From Verif Require Import Base ProcModel ProcSpec ProcProofs2 PdatModel PdatSpec PdatProofs PdatProofs2.
Import ListNotations.
Local Open Scope R_scope.

(* a triangle *)
Definition tx : list R := [0; 1; 3].
Definition tf : list R := [0; 2; 0].
Lemma t_table : table tx tf.
Proof. repeat split; [cbn; lia|]. intros i Hi. cbn in Hi. destruct i as [|[|i]]; [unfold at_; cbn; lra|unfold at_; cbn; lra|lia]. Qed.
Lemma triangle_case : table tx tf /\ polygon tx tf (interp tx tf) /\ within tx (1 / 2) /\ within tx 2 /\
  integrate (curve tx tf) (Some (1 / 2)) (Some 2) false = Ok (Num (Some (9 / 4))) /\ to_cdf (curve tx tf) = Ok (curve tx [0; 1; 3]) /\
  brackets tf [[-1; 1]; [1; 3]; [-1; 1]].
Proof.
  split; [exact t_table|]. assert (polygon tx tf (interp tx tf)) as P by (apply interp_polygon; [reflexivity|exact (proj2 (proj2 t_table))]).
  assert (within tx (1 / 2) /\ within tx 2) as [W1 W2] by (unfold within, at_; cbn; lra).
  split; [exact P|]. split; [exact W1|]. split; [exact W2|]. split; [|split].
  - unfold integrate, curve. rewrite (integrate1_value tx tf None _ _ _ t_table P W1 W2). cbn [bind].
    assert (inner (1 / 2) 2 tx = [1]) as ->.
    { unfold inner, tx. cbn [filter]. unfold rlt. destruct (Rlt_dec (1 / 2) 0), (Rlt_dec (1 / 2) 1), (Rlt_dec 1 2), (Rlt_dec (1 / 2) 3), (Rlt_dec 3 2); cbn; try lra; reflexivity. }
    cbn [app map TransModel.trapz]. rewrite (P 0%nat (1 / 2)), (P 0%nat 1), (P 1%nat 2) by (try (cbn; lia); unfold at_; cbn; lra).
    unfold at_; cbn [nth tx tf]. do 3 f_equal. field.
  - unfold to_cdf, curve, cumtrapz. cbn. repeat apply f_equal2; repeat f_equal; try lra; reflexivity.
  - intros i Hi. cbn in Hi. destruct i as [|[|[|i]]]; [unfold at_; cbn; lra..|lia].
Qed.
Lemma labels_case : labelfig (Labels "Density" "x" "f(x)" "") (Axis " density " "" "" "") = Axis "Density" "x" "f(x)" "" /\
  ~ same_text "Histogram" "Density" /\ labelfig (Labels "Density" "" "" "") (Axis "Histogram" "a" "b" "") = Axis ("Histogram" ++ newline ++ "Density") "a" "b" "".
Proof. repeat split; try reflexivity. rewrite same_text_iff. intros H; discriminate. Qed.
