(** Model of the wavelet tree coding (esp/DRCoder.hpp:96-153 DWaveletTree,
    esp/wt_pc.hpp, esp/MonotoneSubsequences.hpp:484-695).  A level is a list of
    bits: the packing into 64-bit words and the reversal of each word
    (MonotoneSubsequences.hpp:486-494, 516-533) are left out. *)
From Verif Require Import Base BitIO IntCodes Esp SlpSort DCodings Succinct.

(** ** wt_pc.hpp:24-79 *)
(** :37-57: histogram of the values *)
Fixpoint wt_hist (v : list N) (h : list nat) : option (list nat) :=
  match v with
  | [] => Some h
  | x :: v => do c <- nth_error h (N.to_nat x); wt_hist v (upd h (N.to_nat x) (S c))
  end.
(** :66-69, in place there: entry i is written after it was read *)
Fixpoint halve (h : list nat) : list nat :=
  match h with a :: c :: h => a + c :: halve h | _ => [] end.
(** :71-74 *)
Fixpoint prefix_sums (acc : nat) (h : list nat) : list nat :=
  match h with [] => [] | c :: h => acc :: prefix_sums (acc + c) h end.
(** :76-80: [ps] = prefix_shift *)
Fixpoint wt_place (ps : nat) (v : list N) (borders : list nat) (bv : list bool) : option (list bool) :=
  match v with
  | [] => Some bv
  | x :: v =>
      let p := N.to_nat (N.shiftr x (N.of_nat ps)) in
      do pos <- nth_error borders p;
      do old <- nth_error bv pos;
      wt_place ps v (upd borders p (S pos)) (upd bv pos (old || N.testbit x (N.of_nat (ps - 1))))
  end.
(** :59-81, levels 1 .. [level], built from the last one on *)
Fixpoint wt_rest (levels level : nat) (hist : list nat) (v : list N) : option (list (list bool)) :=
  match level with
  | O => Some []
  | S l =>
      let hist := halve hist in
      do bv <- wt_place (levels - level) v (prefix_sums 0 hist) (repeat false (length v));
      do r <- wt_rest levels l hist v;
      Some (r ++ [bv])
  end.
(** MonotoneSubsequences.hpp:484-536 make_wt; [1 << levels] is an int (wt_pc.hpp:26): 
    more than 30 levels are not modelled *)
Definition make_wt (v : list N) (max_char : N) : option (list (list bool)) :=
  let levels := N.size_nat max_char in
  if levels =? 0 then Some []
  else if 30 <? levels then None
  else
    do hist <- wt_hist v (repeat 0 (2 ^ levels));
    do r <- wt_rest levels (levels - 1) hist v;
    Some (map (fun x => N.testbit x (N.of_nat (levels - 1))) v :: r).

(** ** MonotoneSubsequences.hpp:657-695 recover_Dxx *)
(** :670-684: the sizes of the nodes of the next level *)
Fixpoint split_sizes (layer : list bool) (sizes : list nat) : list nat :=
  match sizes with
  | [] => []
  | w :: t =>
      let seg := firstn w layer in
      length (filter negb seg) :: length (filter (fun b => b) seg) :: split_sizes (skipn w layer) t
  end.
(** :660-686 *)
Fixpoint node_sizes (bvs : list (list bool)) (sizes : list nat) : list (list nat) :=
  match bvs with
  | [] => []
  | [_] => [sizes]
  | bv :: r => sizes :: node_sizes r (split_sizes bv sizes)
  end.
(** :538-579 WTIter::next.  [starts]: m_start of the iterators in heap order. *)
Fixpoint wt_next (bvs : list (list bool)) (starts : list nat) (idx : nat) (mn mx : N) : option (N * list nat) :=
  match bvs with
  | [] => None
  | bv :: r =>
      do st <- nth_error starts idx;
      do bit <- nth_error bv st;
      let starts := upd starts idx (S st) in
      match r with
      | [] => Some (if bit then (mx - 1)%N else mn, starts)
      | _ =>
          let mid := ((mx - mn) / 2 + mn)%N in
          if bit then wt_next r starts (2 * idx + 2) mid mx else wt_next r starts (2 * idx + 1) mn mid
      end
  end.
(** :644-650; the root has [n] entries *)
Fixpoint wt_all (n : nat) (bvs : list (list bool)) (starts : list nat) (mx : N) : option (list N) :=
  match n with
  | O => Some []
  | S n => do (x, starts) <- wt_next bvs starts 0 0 mx; do r <- wt_all n bvs starts mx; Some (x :: r)
  end.
(** :581-655 extract_from_wt *)
Definition recover_dxx (bvs : list (list bool)) (n : nat) : option (list N) :=
  match bvs with
  | [] => Some (repeat 0%N n)
  | _ =>
      let sizes := node_sizes bvs [n] in
      let mx := N.of_nat (length (last sizes []) * 2) in
      wt_all n bvs (concat (map (prefix_sums 0) sizes)) mx
  end.

(** ** DRCoder.hpp:96-153 DWaveletTree *)
Fixpoint read_levels (d n : nat) (s : bis) : list (list bool) * bis :=
  match d with
  | O => ([], s)
  | S d => let '(bv, s) := read_bools n s in let '(r, s) := read_levels d n s in (bv :: r, s)
  end.
Definition d_wavelet : dcoding :=
  mk_dc
    (fun rhs _ mx =>
       do bvs <- make_wt rhs mx;
       do c <- write_cint (N.of_nat (length bvs)) 7;
       Some (c ++ concat bvs))
    (fun fuel n _ _ s =>
       do (d, s) <- rd_cint bis_read_bit fuel 7 s;
       let '(bvs, s) := read_levels (N.to_nat d) n s in
       do r <- recover_dxx bvs n;
       Some (r, s)).
