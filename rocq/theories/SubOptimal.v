(** Model of the optimal choice of monotone subsequences (esp/SubseqStrategy.hpp:8-22
    SubSeqOptimal, esp/MonotoneSubsequences.hpp:27-469: L, LayersIterator,
    create_dpi_and_b_from_sorted_indices).  [None]: an access out of range or a loop
    that would not end. *)
From Verif Require Import Base Succinct.

(** :65-81 layers_A_search *)
Fixpoint a_search_loop (fuel : nat) (A : list N) (y : N) (start stop : nat) : option nat :=
  match fuel with
  | O => None
  | S fuel =>
      let mid := (stop - start) / 2 + start in
      do a <- nth_error A mid;
      let '(start, stop) := if (y <? a)%N then (mid, stop) else (start, mid) in
      if 1 <? stop - start then a_search_loop fuel A y start stop else Some start
  end.
Definition a_search (A : list N) (y : N) : option nat := a_search_loop (length A) A y 0 (length A).

(** :131-173 rebuild with the iterator of :399-430.  [ll]: m_linked_list, [fl]: m_free_list. *)
Fixpoint rebuild_loop (fuel : nat) (reverse : bool) (sis fl : list nat) (front back : nat) (ll layers : list nat) (A : list N)
  : option (list nat * list nat) :=
  match fuel with
  | O => None
  | S fuel =>
      let is_last := front =? back in
      let link := if reverse then front else back in
      do nx <- nth_error (if reverse then fl else ll) link;
      let '(front, back) := if reverse then (nx, back) else (front, nx) in
      do y <- nth_error sis link;
      let y := N.of_nat y in
      let l := length layers in
      do j <- a_search (firstn (l + 1) A) y;
      do (ll, layers) <-
        (if j =? l then Some (upd ll link link, layers ++ [link])
         else do old_head <- nth_error layers j; Some (upd ll link old_head, upd layers j link));
      let A := if length A =? j + 1 then A ++ [y] else upd A (j + 1) y in
      if is_last then Some (ll, layers) else rebuild_loop fuel reverse sis fl front back ll layers A
  end.
(** :131-142; the iterator has a next element if something remains *)
Definition rebuild (reverse : bool) (sis fl : list nat) (front back : nat) (ll : list nat) : option (list nat * list nat) :=
  rebuild_loop (S (length sis)) reverse sis fl front back ll [] [(2 ^ 64 - 1)%N].

(** :83-91 and :175-180 dominates *)
Definition pt_x (reverse : bool) (sis : list nat) (link : nat) : nat := if reverse then length sis - link - 1 else link.
Definition dominates (reverse : bool) (sis : list nat) (a c : nat) : option bool :=
  do ya <- nth_error sis a; do yc <- nth_error sis c;
  Some ((pt_x reverse sis c <? pt_x reverse sis a) && (yc <? ya)).
(** :205-216 *)
Fixpoint lis_search (fuel : nat) (reverse : bool) (sis ll : list nat) (s q : nat) : option nat :=
  match fuel with
  | O => None
  | S fuel =>
      do d <- dominates reverse sis s q;
      if d then Some s else do nx <- nth_error ll s; lis_search fuel reverse sis ll nx q
  end.
(** :194-217; [ls]: the layers below, last one first; [acc]: the links found, in the
    order after std::reverse *)
Fixpoint lis_loop (reverse : bool) (sis ll : list nat) (ls : list nat) (q : nat) : option (list nat) :=
  match ls with
  | [] => Some []
  | head :: ls =>
      do s <- lis_search (S (length sis)) reverse sis ll head q;
      do r <- lis_loop reverse sis ll ls s;
      Some (s :: r)
  end.
(** :182-219 lis(layers_size()) *)
Definition lis (reverse : bool) (sis ll layers : list nat) : option (list nat) :=
  match rev layers with
  | [] => Some []
  | q :: ls => do r <- lis_loop reverse sis ll ls q; Some (q :: r)
  end.

(** :229-284: removing from the free list *)
Record fstate := mk_fs { f_free : nat; f_prev : nat; f_next : nat; f_list : list nat; f_start : nat; f_end : nat }.
(** :237-242 *)
Fixpoint f_seek (fuel : nat) (target : nat) (s : fstate) : option fstate :=
  match fuel with
  | O => None
  | S fuel =>
      if f_free s =? target then Some s
      else
        do nn <- nth_error (f_list s) (f_next s);
        f_seek fuel target (mk_fs (f_next s) (f_free s) nn (f_list s) (f_start s) (f_end s))
  end.
(** :246-271 *)
Definition f_remove (s : fstate) : option fstate :=
  let has_prev := negb (f_prev s =? f_free s) in
  let has_next := negb (f_free s =? f_next s) in
  if has_prev && has_next then
    let fl := upd (f_list s) (f_prev s) (f_next s) in
    do nn <- nth_error fl (f_next s);
    Some (mk_fs (f_next s) (f_prev s) nn fl (f_start s) (f_end s))
  else if has_prev then
    let fl := upd (f_list s) (f_prev s) (f_prev s) in
    do nn <- nth_error fl (f_next s);
    Some (mk_fs (f_next s) (f_prev s) nn fl (f_start s) (f_prev s))
  else if has_next then
    do nn <- nth_error (f_list s) (f_next s);
    Some (mk_fs (f_next s) (f_next s) nn (f_list s) (f_next s) (f_end s))
  else Some s.
Fixpoint f_remove_all (fuel : nat) (links : list nat) (s : fstate) : option fstate :=
  match links with
  | [] => Some s
  | x :: links => do s <- f_seek fuel x s; do s <- f_remove s; f_remove_all fuel links s
  end.
(** :294-306: the links to the previous free entry *)
Fixpoint write_prev (fuel : nat) (fl ll : list nat) (prev link : nat) : option (list nat) :=
  match fuel with
  | O => None
  | S fuel =>
      let ll := upd ll link prev in
      do nx <- nth_error fl link;
      if link =? nx then Some ll else write_prev fuel fl ll link nx
  end.
(** links[0] < links[1] (:275) *)
Definition forward (links : list nat) : bool :=
  match links with a :: c :: _ => a <? c | _ => true end.

Record lstate := mk_ls { l_ll : list nat; l_fl : list nat; l_start : nat; l_end : nat; l_removed : nat; l_left : nat }.
(** :221-306 remove_all_and_slice *)
Definition remove_all (n : nat) (links : list nat) (s : lstate) : option lstate :=
  let ll := fold_left (fun d x => upd d x (l_removed s)) links (l_ll s) in
  do nx <- nth_error (l_fl s) (l_start s);
  do f <- f_remove_all (S n) (if forward links then links else rev links)
            (mk_fs (l_start s) (l_start s) nx (l_fl s) (l_start s) (l_end s));
  let left := l_left s - length links in
  do ll <- (if 0 <? left then write_prev (S n) (f_list f) ll (f_start f) (f_start f) else Some ll);
  Some (mk_ls ll (f_list f) (f_start f) (f_end f) (S (l_removed s)) left).

(** :442-464 the main loop *)
Fixpoint opt_loop (fuel : nat) (sis : list nat) (s : lstate) (b : list bool) : option (list nat * list bool) :=
  if l_left s =? 0 then Some (l_ll s, b)
  else match fuel with
  | O => None
  | S fuel =>
      do (ll1, layers1) <- rebuild false sis (l_fl s) (l_start s) (l_end s) (l_ll s);
      do inc <- lis false sis ll1 layers1;
      do (ll2, layers2) <- rebuild true sis (l_fl s) (l_start s) (l_end s) ll1;
      do (links, bit) <-
        (if length inc =? length layers2 then Some (inc, false)
         else if length layers2 <? length inc then Some (inc, false)
         else do dec <- lis true sis ll2 layers2; Some (dec, true));
      do s <- remove_all (length sis) links (mk_ls ll2 (l_fl s) (l_start s) (l_end s) (l_removed s) (l_left s));
      opt_loop fuel sis s (b ++ [bit])
  end.
(** :108-128 the constructor *)
Definition sub_optimal (sis : list nat) : option (list nat * list bool) :=
  let n := length sis in
  opt_loop n sis (mk_ls (map (fun i => i - 1) (seq 0 n)) (map (fun i => if i =? n - 1 then i else i + 1) (seq 0 n)) 0 (n - 1) 0 n) [].
