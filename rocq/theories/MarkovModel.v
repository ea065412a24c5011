(* Model of the count-matrix conversions of src/wafo/markov.py.  An n x n array is a
   function of two indices together with n; entries are real numbers. *)
From Coq Require Import Reals.
From Verif Require Import Base.
Local Open Scope R_scope.

Definition mat := nat -> nat -> R.

(* np.cumsum along axis 0 / axis 1 *)
Fixpoint csum (f : nat -> R) (k : nat) : R :=
  match k with O => f O | S k' => csum f k' + f (S k') end.
Definition cumsum0 (A : mat) : mat := fun i j => csum (fun p => A p j) i.
Definition cumsum1 (A : mat) : mat := fun i j => csum (fun q => A i q) j.
(* np.fliplr of a matrix with w columns *)
Definition fliplr (w : nat) (A : mat) : mat := fun i j => A i (w - 1 - j)%nat.

(* np.sum(A[a:b, c:d]) *)
Fixpoint sum_range (f : nat -> R) (a len : nat) : R :=
  match len with O => 0 | S l => f a + sum_range f (S a) l end.
Definition block_sum (A : mat) (a b c d : nat) : R :=
  sum_range (fun p => sum_range (fun q => A p q) c (d - c)) a (b - a).

(* ---- markov.py:156-160  _raise_kind_error ----------------------------------------- *)
Definition kind_error {A} (kind : Z) : res A :=
  if ((kind =? -1) || (kind =? 0))%Z then Err NotImplementedError else Err ValueError.

(* ---- markov.py:226-286  cmat2nt ---------------------------------------------------- *)
Definition cmat2nt (n : nat) (cmat : mat) (kind : Z) : res mat :=
  if (kind =? 1)%Z then                                            (* 272-275 *)
    let sub := fun i j => cmat i (S j) in                          (* cmat[:-1, 1:] *)
    let blk := fliplr (n - 1) (cumsum1 (fliplr (n - 1) (cumsum0 sub))) in
    Ok (fun i j =>
          if (1 <=? i)%nat && (i <? n)%nat && (j <? n - 1)%nat then blk (i - 1)%nat j else 0)
  else if (kind =? 11)%Z then                                      (* 276-280 *)
    Ok (fun i j =>
          if (1 <=? i)%nat && (i <? n)%nat && (j <? n - 1)%nat
          then block_sum cmat 0 i (j + 1) n else 0)
  else kind_error kind.

(* ---- markov.py:163-223  nt2cmat ---------------------------------------------------- *)
Definition nt2cmat (n : nat) (nt : mat) (kind : Z) : res mat :=
  if (kind =? 1)%Z then                                            (* 209-214 *)
    (* I = 0..n-2, J = 1..n-1; column J[q] = q + 1 *)
    let c := fun i q => nt (i + 1)%nat (q + 1 - 1)%nat - nt i (q + 1 - 1)%nat
                        - nt (i + 1)%nat (q + 1)%nat + nt i (q + 1)%nat in
    let c2 := fun i q => if (i <? n - 1)%nat then c i q else 0 in  (* vstack *)
    Ok (fun i j => if (j =? 0)%nat then 0 else c2 i (j - 1)%nat)   (* hstack *)
  else if (kind =? 11)%Z then                                      (* 215-219 *)
    Ok (fun i j =>
          if (i <? n - 1)%nat && (1 <=? j)%nat && (j <? n)%nat
          then nt (i + 1)%nat (j - 1)%nat - nt i (j - 1)%nat - nt (i + 1)%nat j + nt i j else 0)
  else kind_error kind.

(* ---- markov.py:4-37  nt2fr ----------------------------------------------------------- *)
(* nt[:n-1, :][:, n-1] is a vector of n-1 numbers; adding it to a matrix adds its j-th
   entry to every element of column j *)
Definition nt2fr (n : nat) (nt : mat) (kind : Z) : mat :=
  let raw := fun i j => nt j (n - 1)%nat + nt (i + 1)%nat (j + 1)%nat
                        - nt i (j + 1)%nat - nt (i + 1)%nat j in
  if (kind =? 0)%Z then
    fun i j => if (i <? n - 1)%nat && (j <? n - 1)%nat then raw i j else 0
  else
    fun i j => if (1 <=? i)%nat && (i <? n)%nat && (1 <=? j)%nat && (j <? n)%nat
               then raw (i - 1)%nat (j - 1)%nat else 0.

(* ---- markov.py:40-66  fr2nt ----------------------------------------------------------- *)
(* an array value carries its shape *)
Inductive arr := Vec (len : nat) (v : nat -> R) | Mat (rows cols : nat) (A : mat).
(* np.cumsum without axis flattens *)
Definition cumsum_flat (rows cols : nat) (A : mat) : arr :=
  Vec (rows * cols) (fun k => csum (fun p => A (p / cols)%nat (p mod cols)%nat) k).
(* m[:a, :] *)
Definition rows_upto (m : arr) (a : nat) : res arr :=
  match m with Vec _ _ => Err IndexError | Mat r c A => Ok (Mat (Nat.min a r) c A) end.
Definition cols_from (m : arr) (a : nat) : res arr :=
  match m with Vec _ _ => Err IndexError | Mat r c A => Ok (Mat r (c - a) (fun i j => A i (j + a)%nat)) end.
Definition fr2nt (n m : nat) (fr : mat) : res mat :=
  if (n <? 3)%nat then Err ValueError
  else if negb (n =? m)%nat then Err ValueError
  else
    let m1 := cumsum_flat n n (fun i j => cumsum1 fr i j - fr i j) in   (* 61 *)
    let* top := rows_upto m1 (n - 2) in                                    (* 63 *)
    let* rgt := cols_from top 1 in
    match rgt with
    | Vec _ _ => Err ValueError
    | Mat r c A =>
        let m2 := fun i j => if (1 <=? i)%nat && (1 <=? j)%nat then A (i - 1)%nat (j - 1)%nat else 0 in
        (* fliplr(triu(fliplr(m2))): keep columns with n-1-j >= i *)
        Ok (fun i j => if (i <=? n - 1 - j)%nat then m2 i j else 0)
    end.

(* ---- markov.py:103-122  _raw_iter; fun2rfc is any function on matrices ---------------- *)
Definition mplus (A B : mat) : mat := fun i j => A i j + B i j.
Definition mminus (A B : mat) : mat := fun i j => A i j - B i j.
Definition abs_sum (n : nat) (A : mat) : R := block_sum (fun i j => Rabs (A i j)) 0 n 0 n.
Fixpoint iter_loop (n : nat) (fun2rfc : mat -> mat) (frfc0 : mat) (eps : R) (k : nat) (fmM : mat) : mat :=
  match k with
  | O => fmM
  | S k' =>
      let frfc := fun2rfc fmM in
      let new := fun i j => Rmax 0 (fmM i j + (frfc0 i j - frfc i j)) in
      if Rlt_dec eps (abs_sum n (mminus fmM new))
      then iter_loop n fun2rfc frfc0 eps k' new else new
  end.
Definition raw_iter (n : nat) (fun2rfc : mat -> mat) (frfc : mat) (fmM0 : option mat) (k : nat) (eps : R)
  : mat * mat :=
  let fmM0 := match fmM0 with None => frfc | Some A => A end in
  let fmM := iter_loop n fun2rfc (fliplr n frfc) eps k (fliplr n fmM0) in
  (fliplr n fmM, fliplr n (fun2rfc fmM)).

(* ---- markov.py:796-808  mktestmat: which entries are filled --------------------------- *)
(* The loops `for i in range(min(n - 1 - numsubzero, n))` and
   `for j in range(max(i + numsubzero, 0), n)`; g is the (positive) kernel value. *)
Definition mktestmat (n : Z) (numsubzero : Z) (g : mat) : mat := fun i j =>
  let i' := Z.of_nat i in let j' := Z.of_nat j in
  if ((i' <? Z.min (n - 1 - numsubzero) n) && (Z.max (i' + numsubzero) 0 <=? j') && (j' <? n))%Z
  then g i j else 0.
