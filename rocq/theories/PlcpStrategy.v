(** The strategy "plcp" of lcpcomp: compressors/lcpcomp/compress/PLCPStrategy.hpp.

    [handles] is the vector of handles with the items they point to: [Some (pos, lcp)], or
    [None] once node_ has been set to nullptr (then the item has left the heap, so the
    heap is the set of the [Some] entries; an item's [no] is its index).  The pairing heap
    is boost's, modelled by its contract: top is the greatest item under operator< of
    lines 54-58.  The PLCP values come from LCPForwardIterator (LCPSada.hpp, SAComp.v),
    here as the array of its values. *)
From Verif Require Import Base LZSS Strategies.
Local Open Scope nat_scope.

Definition handle := option (nat * nat).
(** :54-58 operator<: more lcp, then the smaller position *)
Definition poi_lt (a b : nat * nat) : bool :=
  if snd b =? snd a then fst b <? fst a else snd a <? snd b.
(** :87 heap.top(): the index of the greatest item, with the item *)
Fixpoint heap_top (hs : list handle) : option (nat * (nat * nat)) :=
  match hs with
  | [] => None
  | h :: hs' =>
    match h, heap_top hs' with
    | None, r => option_map (fun '(k, a) => (S k, a)) r
    | Some a, None => Some (0, a)
    | Some a, Some (k, b) => if poi_lt a b then Some (S k, b) else Some (0, a)
    end
  end.
(** :97-112 the handles right of the top: erase those that start before [e], the end of the
    factor; newlcp_peak and peak_exists *)
Fixpoint erase_right (e : nat) (hs : list handle) (new : nat) (ex : bool) : list handle * nat * bool :=
  match hs with
  | [] => ([], new, ex)
  | None :: t => let '(t, new, ex) := erase_right e t new ex in (None :: t, new, ex)
  | Some (p, l) :: t =>
    if p <? e then
      let '(t, new, ex) := erase_right e t (if e <? l + p then Nat.max (l + p - e) new else new) ex in
      (None :: t, new, ex)
    else if p =? e then
      let '(t, new, ex) := erase_right e t new true in (Some (p, l) :: t, new, ex)
    else (hs, new, ex)
  end.
(** :135-152 the handles from the last to the first, [hs] being reversed; [next] is next_pos *)
Fixpoint clip_left (thr next : nat) (hs : list handle) : list handle :=
  match hs with
  | [] => []
  | None :: t => None :: clip_left thr next t
  | Some (p, l) :: t =>
    if next <? p then Some (p, l) :: clip_left thr next t
    else if next - p <? l then
      (if next - p <? thr then None else Some (p, next - p)) :: clip_left thr next t
    else hs
  end.
(** :93-131 what becomes of the handles right of the top (p, l).  A handle that is overwritten
    while in use (excluded by the assertion of line 127) would leave an item without a handle
    in the heap: [None]. *)
Definition right_part (thr i p l : nat) (hs : list handle) : option (list handle) :=
  if p + l <? i then
    let '(r, new, ex) := erase_right (p + l) hs 0 false in
    if negb ex && (thr <=? new) then
      match r with None :: r => Some (Some (p + l, new) :: r) | _ => None end
    else Some r
  else Some hs.
(** :86-153 while(!heap.empty()) *)
Fixpoint flush (fuel : nat) (sa isa : list nat) (thr i : nat) (hs : list handle) : option (list factor) :=
  match heap_top hs with
  | None => Some []
  | Some (k, (p, l)) =>
    match fuel with
    | O => None
    | S f =>
      do r <- nth_error isa p;
      do src <- pred_of sa r;
      do rt <- right_part thr i p l (skipn (k + 1) hs);
      let hs1 := firstn k hs ++ None :: rt in
      do fs <- flush f sa isa thr i (rev (clip_left thr p (rev hs1)));
      Some (mk_f p src l :: fs)
    end
  end.
(** :68-165 the loop over the text.  [i+1 == n] in line 82
    cannot hold inside the loop. *)
Fixpoint poi_loop (fuel : nat) (sa isa plcp : list nat) (thr i : nat) (hs : list handle) (last last_lcp : nat)
  : option (list factor) :=
  if i + 1 <? length sa then
    match fuel with
    | O => None
    | S f =>
      do v <- nth_error plcp i;
      match hs with
      | [] => if thr <=? v then poi_loop f sa isa plcp thr (i + 1) [Some (i, v)] i v
              else poi_loop f sa isa plcp thr (i + 1) [] last last_lcp
      | _ =>
        if (last_lcp <=? i - last) || (i + 1 =? length sa) then
          do fs <- flush (length hs) sa isa thr i hs;
          do fs' <- poi_loop f sa isa plcp thr i [] last last_lcp;
          Some (fs ++ fs')
        else if v <=? last_lcp then poi_loop f sa isa plcp thr (i + 1) hs last last_lcp
        else poi_loop f sa isa plcp thr (i + 1) (hs ++ [Some (i, v)]) i v
      end
    end
  else Some [].
Definition plcp_strategy (thr : nat) (sa isa plcp : list nat) : option (list factor) :=
  poi_loop (2 * length sa) sa isa plcp thr 0 [] 0 0.
