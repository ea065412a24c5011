(* Model of src/wafo/polynomial.py:407-476 (orthofit) over exact real numbers. *)
From Coq Require Import Reals.
From Verif Require Import Base PolyModel.
Local Open Scope R_scope.

(* np.sum of the vector f over the N samples *)
Fixpoint vsum (N : nat) (f : nat -> R) : R :=
  match N with O => 0 | S k => vsum k f + f k end.
Definition vmean (N : nat) (f : nat -> R) : R := vsum N f / INR N.

(* polynomial.py:463-474: the rows PL[i], PL[i-1] and the recurrence coefficients p[1,i],
   p[2,i]; x is the vector of the N abscissae *)
Fixpoint ofit (N : nat) (x : nat -> R) (i : nat) : (nat -> R) * (nat -> R) * R * R :=
  match i with
  | O => ((fun _ => 1), (fun _ => 0), 0, 0)
  | S O => ((fun k => x k - vmean N x), (fun _ => 1), vmean N x, 0)
  | S i' =>
      let '(u, v, _, _) := ofit N x i' in
      let p1 := vsum N (fun k => x k * (u k) ^ 2) / vsum N (fun k => (u k) ^ 2) in
      let p2 := vsum N (fun k => x k * (v k * u k)) / vsum N (fun k => (v k) ^ 2) in
      ((fun k => (x k - p1) * u k - p2 * v k), u, p1, p2)
  end.
Definition PL N x i : nat -> R := let '(u, _, _, _) := ofit N x i in u.
Definition OP1 N x i : R := let '(_, _, a, _) := ofit N x i in a.
Definition OP2 N x i : R := let '(_, _, _, b) := ofit N x i in b.

(* polynomial.py:407-476  orthofit(x, y, n), n >= 0, len(x) = len(y).
   n = 0 returns the scalar y.mean(), which orthoval and ortho2poly read as a 1 x 1 table. *)
Definition orthofit (x y : list R) (n : nat) : table :=
  let N := List.length x in
  let xf := at_R x in let yf := at_R y in
  match n with
  | O => Table [vmean N yf] [] []
  | _ => let is := seq 0 (S n) in
         Table (map (fun i => vsum N (fun k => PL N xf i k * yf k) / vsum N (fun k => (PL N xf i k) ^ 2)) is)
               (map (OP1 N xf) is) (map (OP2 N xf) is)
  end.
