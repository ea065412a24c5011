(* What good bins and histograms promise. *)
From Coq Require Import Reals List ZArith.
Import ListNotations.
Local Open Scope R_scope.

(* ..., 0.1, 0.2, 0.5, 1, 2, 5, 10, 20, 50, ... *)
Definition nice (s : R) : Prop := exists m k, (m = 1 \/ m = 2 \/ m = 5)%Z /\ s = IZR m * powerRZ 10 k.
Definition one_if (b : bool) : R := if b then 1 else 0.
(* K + 1 numbers from lo with distance s *)
Definition ladder (lo s : R) (K : nat) : list R := map (fun i => lo + INR i * s) (seq 0 (K + 1)).

(* x lies in the i-th interval of the edges e: half open, the last one closed *)
Definition in_bin (e : list R) (i : nat) (x : R) : Prop :=
  nth i e 0 <= x /\ (x < nth (i + 1) e 0 \/ (i + 2 = List.length e)%nat /\ x = nth (i + 1) e 0).
Definition ascending (e : list R) : Prop := forall i, (i + 1 < List.length e)%nat -> nth i e 0 <= nth (i + 1) e 0.
Definition strictly (e : list R) : Prop := forall i, (i + 1 < List.length e)%nat -> nth i e 0 < nth (i + 1) e 0.
(* [s] is the total weight of the observations with property P *)
Inductive weight_of (P : R -> Prop) : list R -> list R -> R -> Prop :=
| w_nil : weight_of P [] [] 0
| w_in x w X W s : P x -> weight_of P X W s -> weight_of P (x :: X) (w :: W) (w + s)
| w_out x w X W s : ~ P x -> weight_of P X W s -> weight_of P (x :: X) (w :: W) s.
Definition total (l : list R) : R := fold_right Rplus 0 l.
(* the area under the polygon through the points (xx, yy) by the trapezoidal rule *)
Fixpoint area (xx yy : list R) : R :=
  match xx, yy with
  | x0 :: ((x1 :: _) as xx'), y0 :: ((y1 :: _) as yy') => (x1 - x0) * (y0 + y1) / 2 + area xx' yy'
  | _, _ => 0
  end.
(* the area of the bars of heights h on the intervals of e *)
Definition bars_area (e h : list R) : R := total (map (fun i => nth i h 0 * (nth (i + 1) e 0 - nth i e 0)) (seq 0 (List.length h))).
(* the points (xx, yy) draw the bar of height h[i] on the i-th interval of e, one after the other *)
Definition polygon (e h xx : list R) (yy : list (option R)) : Prop :=
  (List.length h + 1 = List.length e)%nat /\ List.length xx = (3 * List.length h + 1)%nat /\ List.length yy = (3 * List.length h + 1)%nat /\
  (forall i, (i < List.length h)%nat ->
     nth (3 * i) xx 0 = nth i e 0 /\ nth (3 * i) yy None = Some 0 /\
     nth (3 * i + 1) xx 0 = nth i e 0 /\ nth (3 * i + 1) yy None = Some (nth i h 0) /\
     nth (3 * i + 2) xx 0 = nth (i + 1) e 0 /\ nth (3 * i + 2) yy None = Some (nth i h 0)) /\
  nth (3 * List.length h) xx 0 = last e 0 /\ nth (3 * List.length h) yy None = Some 0.
