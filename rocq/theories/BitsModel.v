(* Model of src/wafo/bitwise.py over unbounded integers (Python ints; numpy arrays
   of a fixed width wrap, which is not modelled). *)
From Verif Require Import Base.
Local Open Scope Z_scope.

(* bitwise.py:12-33  getbit *)
Definition getbit (i bit : Z) : Z := Z.shiftr (Z.land i (Z.shiftl 1 bit)) bit.

(* bitwise.py:36-40  getbits: bit = arange(0, numbits) *)
Definition getbits (i : Z) (numbits : nat) : list Z :=
  map (fun b => getbit i (Z.of_nat b)) (seq 0 numbits).

(* bitwise.py:43-66  setbit; i == i and bit == bit are true *)
Definition setbit (i bit value : Z) : Z :=
  let val1 := Z.shiftl 1 bit in
  let val0 := Z.lnot val1 in
  if value =? 0 then Z.land i val0 else Z.lor i val1.

(* bitwise.py:69-83  setbits *)
Fixpoint setbits_from (val : Z) (i : Z) (l : list Z) : Z :=
  match l with
  | [] => val
  | j :: l' => setbits_from (Z.lor val (Z.shiftl j i)) (i + 1) l'
  end.
Definition setbits (l : list Z) : Z := setbits_from 0 0 l.
