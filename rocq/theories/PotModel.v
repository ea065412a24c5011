(* Model of the peaks-over-threshold functions of src/wafo/stats/core.py.  Data values
   and times are integers (see DESIGN.md, number domains).  np.argsort is a parameter:
   its default algorithm is not stable, so nothing is assumed about ties. *)
From Verif Require Import Base CrossModel.
Local Open Scope list_scope.
Local Open Scope Z_scope.

(* l[ind] for an index list known to be in range *)
Definition pick (l : list Z) (ind : list nat) : list Z := map (fun i => nth i l 0) ind.

(* stats/core.py:621-622  o_order = zeros(num_y); o_order[i] = range(num_y) *)
Fixpoint put {A} (l : list A) (i : nat) (v : A) : list A :=
  match l, i with
  | [], _ => []
  | _ :: l', O => v :: l'
  | a :: l', S i' => a :: put l' i' v
  end.
Definition inverse_order (n : nat) (i : list nat) : list nat :=
  fold_left (fun o p => put o (fst p) (snd p)) (combine i (seq 0 n)) (repeat O n).

(* stats/core.py:626-633  the loop over the times in the order of decreasing height;
   pool[:k] holds the intervals around the peaks kept so far *)
Fixpoint pool_loop (tmin : Z) (tis : list Z) (pool : list (Z * Z)) : list bool :=
  match tis with
  | [] => []
  | ti :: r =>
      let close := existsb (fun p => (fst p <=? ti) && (ti <=? snd p)) pool in
      close :: pool_loop tmin r (if close then pool else pool ++ [(ti + - tmin, ti + tmin)])
  end.

(* stats/core.py:612-636  _find_ok_peaks *)
Definition find_ok_peaks (argsort : list Z -> list nat) (y t : list Z) (tmin : Z) : list nat :=
  let num := length y in
  let i := argsort (map Z.opp y) in
  let tis := pick t i in
  let o_order := inverse_order num i in
  let close := pool_loop tmin tis [] in
  filter (fun k => negb (nth (nth k o_order O) close false)) (seq 0 num).

Definition b2z (b : bool) : Z := if b then 1 else 0.

(* stats/core.py:445-446 *)
Definition close_flags (small : list bool) : list bool :=
  hd false small :: map (fun p => fst p || snd p) (combine (removelast small) (tl small)) ++ [last small false].

(* stats/core.py:451-455  one pass of the loop over the pairs (start, stop) *)
Definition unflag (argsort : list Z -> list nat) (di ti : list Z) (tmin : Z) (flags : list bool) (p : nat * nat) : list bool :=
  let (start, stop) := p in
  let i_ok := find_ok_peaks argsort (slice start stop di) (slice start stop ti) tmin in
  fold_left (fun fl k => put fl (start + k)%nat false) i_ok flags.

(* stats/core.py:444-461; line 449 takes iy[:2] - 1, not iy[::2] - 1 *)
Definition remove_close (m : impl) (argsort : list Z -> list nat) (ix : list nat) (small : list bool) (di ti : list Z) (tmin : Z)
  : res (list nat) :=
  let* iy := findextrema m ([0; 0] ++ map b2z small ++ [0]) in
  let no := map Nat.pred (firstn 2 iy) in
  let nc := step2 1 iy in
  let flags := fold_left (unflag argsort di ti tmin) (combine no nc) (close_flags small) in
  if existsb (fun b => b) flags
  then Ok (map fst (filter (fun p => negb (snd p)) (combine ix flags)))
  else Ok ix.

(* stats/core.py:541-609  findpot with the threshold given; t = None means np.arange(len(data)) *)
Definition findpot (m : impl) (argsort : list Z -> list nat) (data : list Z) (t : option (list Z)) (thresh tmin : Z)
  : res (list nat) :=
  let t := match t with Some t => t | None => map Z.of_nat (seq 0 (length data)) end in
  let ix := filter (fun i => thresh <? nth i data 0) (seq 0 (length data)) in
  let di := pick data ix in
  let* ti := take_at t ix in
  if (length di <=? 1)%nat then Ok ix
  else
    let dt := diff ti in
    let not_sorted := existsb (fun d => d <? 0) dt in
    let i := argsort ti in
    let ti' := if not_sorted then pick ti i else ti in
    let ix' := if not_sorted then map (fun k => nth k ix O) i else ix in
    let di' := if not_sorted then pick di i else di in
    let dt' := if not_sorted then diff ti' else dt in
    let small := map (fun d => d <=? tmin) dt' in
    if existsb (fun b => b) small then remove_close m argsort ix' small di' ti' tmin
    else Ok ix'.

(* stats/core.py:401-441  decluster; data and t are arrays *)
Definition decluster (m : impl) (argsort : list Z -> list nat) (data : list Z) (t : option (list Z)) (thresh tmin : Z)
  : res (list Z * list Z) :=
  let tt := match t with Some t => t | None => map Z.of_nat (seq 0 (length data)) end in
  let* i := findpot m argsort data (Some tt) thresh tmin in
  let* ev := take_at data i in
  let* te := take_at tt i in
  Ok (ev, te).
