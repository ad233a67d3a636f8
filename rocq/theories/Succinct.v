(** Model of the coding "succinct" of the right-hand sides (esp/DRCoder.hpp:154-287
    DMonotonSubseq, esp/MonotoneSubsequences.hpp) and of the greedy choice of
    monotone subsequences (esp/SubseqStrategy.hpp). *)
From Verif Require Import Base BitIO IntCodes Esp SlpSort DCodings.

(** ** MonotoneSubsequences.hpp:10-27 sorted_indices.  The result of std::stable_sort
    is unique; insertion sort stands for it. *)
Fixpoint si_insert (key : nat -> N) (i : nat) (l : list nat) : list nat :=
  match l with
  | [] => [i]
  | j :: t => if (key j <=? key i)%N then j :: si_insert key i t else i :: l
  end.
Definition sorted_indices (v : list N) : list nat :=
  fold_left (fun l i => si_insert (fun j => nth j v 0%N) i l) (seq 0 (length v)) [].

(** ** :470-482 create_dsigma_from_dpi_and_sorted_indices *)
Definition dsigma (sis dpi : list nat) : list nat :=
  fold_left (fun d x => upd d (fst x) (snd x)) (combine sis dpi) (repeat 0 (length sis)).

(** ** :697-755 recover_D_from_encoding *)
(** :713-731.  [fr]: ss_ll_front, [None] for size_t(-1). *)
Fixpoint link_all (i : nat) (dpi : list nat) (b : list bool) (ll : list nat) (fr : list (option nat))
  : option (list nat * list (option nat)) :=
  match dpi with
  | [] => Some (ll, fr)
  | l :: dpi =>
      do f <- nth_error fr l;
      match f with
      | None => link_all (S i) dpi b (upd ll i i) (upd fr l (Some i))
      | Some root =>
          do nx <- nth_error ll root;
          do bl <- nth_error b l;
          link_all (S i) dpi b (upd (upd ll root i) i nx) (if bl then upd fr l (Some i) else fr)
      end
  end.
(** :733-735 *)
Fixpoint advance_fronts (ll : list nat) (fr : list (option nat)) : option (list nat) :=
  match fr with
  | [] => Some []
  | f :: fr => do r <- f; do x <- nth_error ll r; do t <- advance_fronts ll fr; Some (x :: t)
  end.
(** :739-752: from the last position to the first; [acc] holds the later values. *)
Fixpoint emit (dsi_rev : list nat) (ll fr : list nat) (bde : list N) (acc : list N) : option (list N) :=
  match dsi_rev with
  | [] => Some acc
  | l :: r =>
      do front <- nth_error fr l;
      do nx <- nth_error ll front;
      do v <- nth_error bde front;
      emit r ll (upd fr l nx) bde (v :: acc)
  end.
Definition recover (dpi dsi : list nat) (b : list bool) (bde : list N) : option (list N) :=
  do (ll, fr) <- link_all 0 dpi b (repeat 0 (length dpi)) (repeat None (length b));
  do fr <- advance_fronts ll fr;
  emit (rev dsi) ll fr bde [].

(** ** DRCoder.hpp:154-287.  [sub]: the strategy, giving Dpi and b *)
Fixpoint read_bools (n : nat) (s : bis) : list bool * bis :=
  match n with
  | O => ([], s)
  | S n => let '(b, s) := bis_read_bit s in let '(r, s) := read_bools n s in (b :: r, s)
  end.
Definition d_succinct (sub : list nat -> option (list nat * list bool)) (dx : dcoding) : dcoding :=
  mk_dc
    (fun rhs _ _ =>
       let sis := sorted_indices rhs in
       do (dpi, b) <- sub sis;
       do cb <- write_cint (N.of_nat (length b)) 7;
       let mx := (N.of_nat (length b) - 1)%N in
       do d <- dc_enc dx (map N.of_nat (dpi ++ dsigma sis dpi)) (bits_forn mx) mx;
       Some (unary_up 0 (map (fun i => nth i rhs 0%N) sis) ++ cb ++ b ++ d))
    (fun fuel n _ _ s =>
       do (bde, s) <- read_up fuel n 0 s;
       do (bs, s) <- rd_cint bis_read_bit fuel 7 s;
       let '(b, s) := read_bools (N.to_nat bs) s in
       let mx := (bs - 1)%N in
       do (dc, s) <- dc_dec dx fuel (2 * n) (bits_forn mx) mx s;
       do d <- recover (map N.to_nat (firstn n dc)) (map N.to_nat (skipn n dc)) b bde;
       Some (d, s)).

(** ** SubseqStrategy.hpp:24-164 SubSeqGreedy.  [fl]: free_list, as two arrays; the
    start dummy is number n, the end dummy n + 1. *)
(** :40-64 (the loop and the assignments after it as one table) *)
Definition fl_prev0 (n : nat) : list nat := map (fun i => if i =? 0 then n else i - 1) (seq 0 n) ++ [n; n - 1].
Definition fl_next0 (n : nat) : list nat := map (fun i => if i =? n - 1 then n + 1 else i + 1) (seq 0 n) ++ [0; n + 1].
(** :105-124 and :127-144: walk along [link] up to the dummy [stop]; a link whose sorted
    index is larger than that of the last one taken is taken.  [acc]: the taken links,
    last first. *)
Fixpoint gwalk (fuel : nat) (sis link : list nat) (stop c : nat) (acc : list nat) : option (list nat) :=
  match fuel with
  | O => None
  | S fuel =>
      do nx <- nth_error link c;
      if nx =? stop then Some acc
      else do a <- hd_error acc;
           do x <- nth_error sis nx; do y <- nth_error sis a;
           gwalk fuel sis link stop nx (if y <? x then nx :: acc else acc)
  end.
(** :78-89 remove *)
Definition gremove (fl : list nat * list nat) (x : nat) : option (list nat * list nat) :=
  let '(pv, nx) := fl in
  do p <- nth_error pv x;
  do q <- nth_error nx x;
  Some (upd (upd pv q p) x x, upd (upd nx p q) x x).
Fixpoint gremove_all (fl : list nat * list nat) (s : list nat) : option (list nat * list nat) :=
  match s with [] => Some fl | x :: s => do fl <- gremove fl x; gremove_all fl s end.
Definition label (c : nat) (dpi : list nat) (s : list nat) : list nat := fold_left (fun d x => upd d x c) s dpi.
(** :103-158 the main loop *)
Fixpoint greedy_loop (fuel : nat) (sis : list nat) (fl : list nat * list nat) (dpi : list nat) (b : list bool)
  : option (list nat * list bool) :=
  let n := length sis in
  match fuel with
  | O => None
  | S fuel =>
      do first <- nth_error (snd fl) n;
      if first =? n + 1 then Some (dpi, b)
      else
        do last <- nth_error (fst fl) (n + 1);
        do inc <- gwalk (S n) sis (snd fl) (n + 1) first [first];
        do dec <- gwalk (S n) sis (fst fl) n last [last];
        (* [inc] is reversed, [dec] is in the order after std::reverse *)
        let up := length dec <=? length inc in
        let s := if up then rev inc else dec in
        do fl <- gremove_all fl s;
        greedy_loop fuel sis fl (label (length b) dpi s) (b ++ [negb up])
  end.
Definition sub_greedy (sis : list nat) : option (list nat * list bool) :=
  let n := length sis in
  greedy_loop (S n) sis (fl_prev0 n, fl_next0 n) (repeat 999 n) [].
