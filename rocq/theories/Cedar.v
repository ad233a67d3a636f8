(** Cedar: the double-array trie of compressors/lz78/cedar.hpp as the LZ78/LZW
    dictionary CedarTrie (compressors/lz78/CedarTrie.hpp), and the two compressors run
    with it.

    cedar.hpp is modelled in the configuration CedarTrie uses: [value_type] is a 32 bit
    integer, USE_REDUCED_TRIE undefined, ORDERED = true, MAX_TRIAL = 1,
    NUM_TRACKING_NODES = 0, keys of length one.  Numbers are integers without an upper
    bound (the C++ indices are [int]); arrays are functions on indices, [c_size] is the
    allocated part.  Reallocation keeps the contents and is not modelled.  Loops that run
    along a list of siblings or a ring of free cells have as many steps as there are
    labels or cells (256), so that they end in the model by construction. *)
From Coq Require Import ZArith.
From Verif Require Import Base Coders LZ.
Local Open Scope Z_scope.

(** An array store. *)
Definition fu {A} (f : Z -> A) (i : Z) (v : A) : Z -> A := fun j => if j =? i then v else f j.

(** cedar.hpp:49-75, 394-404: the arrays [_array] (base_ and check), [_ninfo] (sibling
    and child), [_block] (prev, next, num, reject, trial, ehead), [_reject], the list
    heads and [_size].  A free cell has check < 0; its base_ and check are the negated
    previous and next free cell. *)
Record cedar := mk_cedar {
  ab : Z -> Z; ac : Z -> Z;
  sb : Z -> Z; cd : Z -> Z;
  kp : Z -> Z; kn : Z -> Z; kc : Z -> Z; kr : Z -> Z; kt : Z -> Z; ke : Z -> Z;
  rj : Z -> Z;
  hF : Z; hC : Z; hO : Z;
  c_size : Z }.

Definition set_ab f d := mk_cedar f (ac d) (sb d) (cd d) (kp d) (kn d) (kc d) (kr d) (kt d) (ke d) (rj d) (hF d) (hC d) (hO d) (c_size d).
Definition set_ac f d := mk_cedar (ab d) f (sb d) (cd d) (kp d) (kn d) (kc d) (kr d) (kt d) (ke d) (rj d) (hF d) (hC d) (hO d) (c_size d).
Definition set_sb f d := mk_cedar (ab d) (ac d) f (cd d) (kp d) (kn d) (kc d) (kr d) (kt d) (ke d) (rj d) (hF d) (hC d) (hO d) (c_size d).
Definition set_cd f d := mk_cedar (ab d) (ac d) (sb d) f (kp d) (kn d) (kc d) (kr d) (kt d) (ke d) (rj d) (hF d) (hC d) (hO d) (c_size d).
Definition set_kp f d := mk_cedar (ab d) (ac d) (sb d) (cd d) f (kn d) (kc d) (kr d) (kt d) (ke d) (rj d) (hF d) (hC d) (hO d) (c_size d).
Definition set_kn f d := mk_cedar (ab d) (ac d) (sb d) (cd d) (kp d) f (kc d) (kr d) (kt d) (ke d) (rj d) (hF d) (hC d) (hO d) (c_size d).
Definition set_kc f d := mk_cedar (ab d) (ac d) (sb d) (cd d) (kp d) (kn d) f (kr d) (kt d) (ke d) (rj d) (hF d) (hC d) (hO d) (c_size d).
Definition set_kr f d := mk_cedar (ab d) (ac d) (sb d) (cd d) (kp d) (kn d) (kc d) f (kt d) (ke d) (rj d) (hF d) (hC d) (hO d) (c_size d).
Definition set_kt f d := mk_cedar (ab d) (ac d) (sb d) (cd d) (kp d) (kn d) (kc d) (kr d) f (ke d) (rj d) (hF d) (hC d) (hO d) (c_size d).
Definition set_ke f d := mk_cedar (ab d) (ac d) (sb d) (cd d) (kp d) (kn d) (kc d) (kr d) (kt d) f (rj d) (hF d) (hC d) (hO d) (c_size d).
Definition set_rj f d := mk_cedar (ab d) (ac d) (sb d) (cd d) (kp d) (kn d) (kc d) (kr d) (kt d) (ke d) f (hF d) (hC d) (hO d) (c_size d).
Definition set_hF v d := mk_cedar (ab d) (ac d) (sb d) (cd d) (kp d) (kn d) (kc d) (kr d) (kt d) (ke d) (rj d) v (hC d) (hO d) (c_size d).
Definition set_hC v d := mk_cedar (ab d) (ac d) (sb d) (cd d) (kp d) (kn d) (kc d) (kr d) (kt d) (ke d) (rj d) (hF d) v (hO d) (c_size d).
Definition set_hO v d := mk_cedar (ab d) (ac d) (sb d) (cd d) (kp d) (kn d) (kc d) (kr d) (kt d) (ke d) (rj d) (hF d) (hC d) v (c_size d).
Definition set_size v d := mk_cedar (ab d) (ac d) (sb d) (cd d) (kp d) (kn d) (kc d) (kr d) (kt d) (ke d) (rj d) (hF d) (hC d) (hO d) v.

(** cedar.hpp:418-434 _initialize; the block constructor is line 73, the array
    constructors line 57 and 69. *)
Definition c_init : cedar :=
  mk_cedar (fun i => if (1 <=? i) && (i <? 256) then (if i =? 1 then -255 else - (i - 1)) else 0)
           (fun i => if i =? 0 then -1
                     else if (1 <=? i) && (i <? 256) then (if i =? 255 then -1 else - (i + 1)) else 0)
           (fun _ => 0) (fun _ => 0)
           (fun _ => 0) (fun _ => 0) (fun _ => 256) (fun _ => 257) (fun _ => 0)
           (fun i => if i =? 0 then 1 else 0)
           (fun i => i + 1) 0 0 0 256.

(** The three lists of blocks: full, closed, open. *)
Inductive lst := LF | LC | LO.
Definition head (w : lst) (d : cedar) : Z := match w with LF => hF d | LC => hC d | LO => hO d end.
Definition set_head (w : lst) (v : Z) (d : cedar) : cedar :=
  match w with LF => set_hF v d | LC => set_hC v d | LO => set_hO v d end.

(** cedar.hpp:494-503 _pop_block *)
Definition pop_block (bi : Z) (w : lst) (last : bool) (d : cedar) : cedar :=
  if last then set_head w 0 d
  else
    let d1 := set_kn (fu (kn d) (kp d bi) (kn d bi)) d in
    let d2 := set_kp (fu (kp d1) (kn d1 bi) (kp d1 bi)) d1 in
    if bi =? head w d2 then set_head w (kn d2 bi) d2 else d2.
(** cedar.hpp:504-514 _push_block; line 512 assigns from right to left *)
Definition push_block (bi : Z) (w : lst) (empty : bool) (d : cedar) : cedar :=
  if empty then set_head w bi (set_kp (fu (kp d) bi bi) (set_kn (fu (kn d) bi bi) d))
  else
    let h := head w d in
    let tail := kp d h in
    let d1 := set_kp (fu (kp d) bi tail) d in
    let d2 := set_kn (fu (kn d1) bi h) d1 in
    let d3 := set_kn (fu (kn d2) tail bi) d2 in
    set_head w bi (set_kp (fu (kp d3) h bi) d3).
(** cedar.hpp:536-539 _transfer_block *)
Definition transfer_block (bi : Z) (win wout : lst) (d : cedar) : cedar :=
  let d1 := pop_block bi win (bi =? kn d bi) d in
  push_block bi wout ((head wout d1 =? 0) && negb (kc d1 bi =? 0)) d1.
(** cedar.hpp:515-534 _add_block: the new cells form one ring; fresh ninfo and block
    entries are the default ones.  Returns the new block's number times 256. *)
Definition add_block (d : cedar) : Z * cedar :=
  let z := c_size d in let b := z / 256 in
  let fresh i := (z <=? i) && (i <? z + 256) in
  let d1 := mk_cedar
    (fun i => if fresh i then (if i =? z then - (z + 255) else - (i - 1)) else ab d i)
    (fun i => if fresh i then (if i =? z + 255 then - z else - (i + 1)) else ac d i)
    (fun i => if fresh i then 0 else sb d i) (fun i => if fresh i then 0 else cd d i)
    (fu (kp d) b 0) (fu (kn d) b 0) (fu (kc d) b 256) (fu (kr d) b 257) (fu (kt d) b 0)
    (fu (ke d) b z) (rj d) (hF d) (hC d) (hO d) (z + 256) in
  (z, push_block b LO (hO d1 =? 0) d1).

(** cedar.hpp:597-601 _find_place () *)
Definition find_place1 (d : cedar) : Z * cedar :=
  if negb (hC d =? 0) then (ke d (hC d), d)
  else if negb (hO d =? 0) then (ke d (hO d), d)
  else add_block d.
(** cedar.hpp:540-567 _pop_enode *)
Definition pop_enode (base label from : Z) (d : cedar) : Z * cedar :=
  let '(e, d) := if base <? 0 then find_place1 d else (Z.lxor base label, d) in
  let bi := e / 256 in
  let d1 := set_kc (fu (kc d) bi (kc d bi - 1)) d in
  let d2 :=
    if kc d1 bi =? 0 then (if negb (bi =? 0) then transfer_block bi LC LF d1 else d1)
    else
      let a1 := set_ac (fu (ac d1) (- ab d1 e) (ac d1 e)) d1 in
      let a2 := set_ab (fu (ab a1) (- ac a1 e) (ab a1 e)) a1 in
      let a3 := if e =? ke a2 bi then set_ke (fu (ke a2) bi (- ac a2 e)) a2 else a2 in
      if negb (bi =? 0) && (kc a3 bi =? 1) && negb (kt a3 bi =? 1)
      then transfer_block bi LO LC a3 else a3 in
  let d3 := set_ab (fu (ab d2) e (if negb (label =? 0) then -1 else 0)) d2 in
  let d4 := set_ac (fu (ac d3) e from) d3 in
  let d5 := if base <? 0 then set_ab (fu (ab d4) from (Z.lxor e label)) d4 else d4 in
  (e, d5).
(** cedar.hpp:568-587 _push_enode *)
Definition push_enode (e : Z) (d : cedar) : cedar :=
  let bi := e / 256 in
  let d1 := set_kc (fu (kc d) bi (kc d bi + 1)) d in
  let d2 :=
    if kc d1 bi =? 1 then
      let a1 := set_ke (fu (ke d1) bi e) d1 in
      let a2 := set_ac (fu (ac a1) e (- e)) (set_ab (fu (ab a1) e (- e)) a1) in
      if negb (bi =? 0) then transfer_block bi LF LC a2 else a2
    else
      let prev := ke d1 bi in
      let next := - ac d1 prev in
      let a1 := set_ac (fu (ac d1) e (- next)) (set_ab (fu (ab d1) e (- prev)) d1) in
      let a2 := set_ab (fu (ab a1) next (- e)) a1 in
      let a3 := set_ac (fu (ac a2) prev (- e)) a2 in
      let a4 := if ((kc a3 bi =? 2) || (kt a3 bi =? 1)) && negb (bi =? 0)
                then transfer_block bi LC LO a3 else a3 in
      set_kt (fu (kt a4) bi 0) a4 in
  let d3 := if kr d2 bi <? rj d2 (kc d2 bi) then set_kr (fu (kr d2) bi (rj d2 (kc d2 bi))) d2 else d2 in
  set_cd (fu (cd d3) e 0) (set_sb (fu (sb d3) e 0) d3).

(** The sibling loop of _push_sibling: from label [q], the last label whose sibling is
    absent or not below [label]. *)
Fixpoint sib_prev (fuel : nat) (s : Z -> Z) (base q label : Z) : Z :=
  match fuel with
  | O => q
  | S fuel =>
      let nx := s (Z.lxor base q) in
      if negb (nx =? 0) && (nx <? label) then sib_prev fuel s base nx label else q
  end.
(** cedar.hpp:588-594 _push_sibling *)
Definition push_sibling (from base label : Z) (flag : bool) (d : cedar) : cedar :=
  if flag && (cd d from <? label) then
    let q := sib_prev 256 (sb d) base (cd d from) label in
    let s1 := fu (sb d) (Z.lxor base label) (sb d (Z.lxor base q)) in
    set_sb (fu s1 (Z.lxor base q) label) d
  else
    set_cd (fu (cd d) from label) (set_sb (fu (sb d) (Z.lxor base label) (cd d from)) d).
(** cedar.hpp:601-606 _consult *)
Fixpoint consult (fuel : nat) (s : Z -> Z) (base_n base_p c_n c_p : Z) : bool :=
  match fuel with
  | O => false
  | S fuel =>
      let n := s (Z.lxor base_n c_n) in
      let p := s (Z.lxor base_p c_p) in
      if negb (n =? 0) && negb (p =? 0) then consult fuel s base_n base_p n p
      else negb (p =? 0)
  end.
(** The labels from [c] on along the siblings, up to the label 0. *)
Fixpoint sibs (fuel : nat) (s : Z -> Z) (base c : Z) : list Z :=
  match fuel with
  | O => []
  | S fuel => if c =? 0 then [] else c :: sibs fuel s base (s (Z.lxor base c))
  end.
(** [label] placed before the first label that is not smaller *)
Fixpoint put_label (label : Z) (l : list Z) : list Z :=
  match l with
  | [] => [label]
  | x :: l' => if x <? label then x :: put_label label l' else label :: l
  end.
(** cedar.hpp:607-617 _set_child; [None]: label = -1 *)
Definition set_child (s : Z -> Z) (base c : Z) (label : option Z) : list Z :=
  let ls := if c =? 0 then sibs 256 s base (s (Z.lxor base c)) else sibs 256 s base c in
  let ls := match label with Some x => put_label x ls | None => ls end in
  if c =? 0 then 0 :: ls else ls.

(** cedar.hpp:632-637: round the ring of free cells from [e]; [eh] is where it began *)
Fixpoint explore (fuel : nat) (chk : Z -> Z) (first : Z) (others : list Z) (eh e : Z) : option Z :=
  match fuel with
  | O => None
  | S fuel =>
      if forallb (fun p => chk (Z.lxor (Z.lxor e first) p) <? 0) others then Some e
      else let e' := - chk e in
           if e' =? eh then None else explore fuel chk first others eh e'
  end.
(** cedar.hpp:627-645: the loop over the open blocks *)
Fixpoint find_blocks (fuel : nat) (nc first : Z) (others : list Z) (bi bz : Z) (d : cedar)
  : option Z * cedar :=
  match fuel with
  | O => (None, d)
  | S fuel =>
      let r := if (nc <=? kc d bi) && (nc <? kr d bi)
               then explore 256 (ac d) first others (ke d bi) (ke d bi) else None in
      match r with
      | Some e => (Some e, set_ke (fu (ke d) bi e) d)
      | None =>
          let d1 := set_kr (fu (kr d) bi nc) d in
          let d2 := if kr d1 bi <? rj d1 (kc d1 bi)
                    then set_rj (fu (rj d1) (kc d1 bi) (kr d1 bi)) d1 else d1 in
          let bi_ := kn d2 bi in
          let d3 := set_kt (fu (kt d2) bi (kt d2 bi + 1)) d2 in
          let d4 := if kt d3 bi =? 1 then transfer_block bi LO LC d3 else d3 in
          if bi =? bz then (None, d4) else find_blocks fuel nc first others bi_ bz d4
      end
  end.
(** cedar.hpp:623-648 _find_place (first, last) *)
Definition find_place (ls : list Z) (d : cedar) : Z * cedar :=
  match ls with
  | [] => add_block d
  | first :: others =>
      let bi := hO d in
      let '(r, d) :=
        if negb (bi =? 0)
        then find_blocks (Z.to_nat (c_size d / 256)) (Z.of_nat (length ls)) first others bi (kp d bi) d
        else (None, d) in
      match r with Some e => (e, d) | None => add_block d end
  end.

(** cedar.hpp:672-705: moving the children [ls] of [from] from [base_] to [base].  The
    state is from_n (the node that gets the new child, which may itself be moved) and
    the arrays; [to_pn] is the cell in conflict, [flag] as in _resolve.  [p <= last] with
    its look-ahead [*(p + 1)] is the recursion on the list. *)
Fixpoint move_kids (flag : bool) (base base_ from to_pn label_n : Z) (ls : list Z)
  (fn : Z) (d : cedar) : Z * cedar :=
  match ls with
  | [] => (fn, d)
  | p :: ls' =>
      let '(to, d) := pop_enode base p from d in
      let to_ := Z.lxor base_ p in
      let d1 := set_sb (fu (sb d) to (match ls' with [] => 0 | q :: _ => q end)) d in
      let '(fn, d) :=
        if flag && (to_ =? to_pn) then (fn, d1)
        else
          let d2 := set_ab (fu (ab d1) to (ab d1 to_)) d1 in
          let d3 :=
            if (0 <? ab d2 to) && negb (p =? 0) then
              let c := cd d2 to_ in
              let a1 := set_cd (fu (cd d2) to c) d2 in
              let kids := c :: sibs 256 (sb a1) (ab a1 to) (sb a1 (Z.lxor (ab a1 to) c)) in
              set_ac (fold_left (fun f k => fu f (Z.lxor (ab a1 to) k) to) kids (ac a1)) a1
            else d2 in
          let fn := if negb flag && (to_ =? fn) then to else fn in
          if negb flag && (to_ =? to_pn) then
            let a1 := push_sibling fn (Z.lxor to_pn label_n) label_n true d3 in
            let a2 := set_cd (fu (cd a1) to_ 0) a1 in
            let a3 := set_ab (fu (ab a2) to_ (if negb (label_n =? 0) then -1 else 0)) a2 in
            (fn, set_ac (fu (ac a3) to_ fn) a3)
          else (fn, push_enode to_ d3) in
      move_kids flag base base_ from to_pn label_n ls' fn d
  end.
(** cedar.hpp:649-713 _resolve: returns the new node, from_n and the arrays *)
Definition resolve (fn base_n label_n : Z) (d : cedar) : Z * Z * cedar :=
  let to_pn := Z.lxor base_n label_n in
  let from_p := ac d to_pn in
  let base_p := ab d from_p in
  let flag := consult 256 (sb d) base_n base_p (cd d fn) (cd d from_p) in
  let ls := if flag then set_child (sb d) base_n (cd d fn) (Some label_n)
            else set_child (sb d) base_p (cd d from_p) None in
  let first := hd 0 ls in
  let '(e, d) := match ls with [_] => find_place1 d | _ => find_place ls d end in
  let base := Z.lxor e first in
  let from := if flag then fn else from_p in
  let base_ := if flag then base_n else base_p in
  let d1 := if flag && (first =? label_n) then set_cd (fu (cd d) from label_n) d else d in
  let d2 := set_ab (fu (ab d1) from base) d1 in
  let '(fn', d3) := move_kids flag base base_ from to_pn label_n ls fn d2 in
  (if flag then Z.lxor base label_n else to_pn, fn', d3).

(** cedar.hpp:436-448 _follow: the child, [from] (which _resolve may change), the arrays *)
Definition follow (from label : Z) (d : cedar) : Z * Z * cedar :=
  let base := ab d from in
  if (base <? 0) || (ac d (Z.lxor base label) <? 0) then
    let '(to, d1) := pop_enode base label from d in
    (to, from, push_sibling from (Z.lxor to label) label (0 <=? base) d1)
  else if negb (ac d (Z.lxor base label) =? from) then resolve from base label d
  else (Z.lxor base label, from, d).

(** cedar.hpp:450-475 _find for a key of one letter, as [traverse] (153-158) calls it.  A
    negative base becomes a huge index: undefined, [None].  [inl]: CEDAR_NO_PATH, [from]
    unchanged; [inr (value, from)] with [None] = CEDAR_NO_VALUE. *)
Definition find1 (d : cedar) (from label : Z) : option (unit + option Z * Z) :=
  if ab d from <? 0 then None
  else
    let to := Z.lxor (ab d from) label in
    if c_size d <=? to then None
    else if negb (ac d to =? from) then Some (inl tt)
    else if ab d to <? 0 then None
    else if negb (ac d (ab d to) =? to) then Some (inr (None, to))
    else Some (inr (Some (ab d (ab d to)), to)).

(** cedar.hpp:167-194 update for a key of one letter: the node reached and the arrays *)
Definition update1 (from label val : Z) (d : cedar) : Z * cedar :=
  let '(to, _, d1) := follow from label d in
  let '(t0, from, d2) := follow to 0 d1 in
  (from, set_ab (fu (ab d2) t0 (ab d2 t0 + val)) d2).

(** ** CedarTrie.hpp *)
(** CedarTrie.hpp:38-39, 46 *)
Definition ESC : Z := 255.
Definition ESC0 : Z := 254.
Definition HIDDEN : Z := -3.

(** m_trie, m_ids, m_roots (CedarTrie.hpp:65-68) *)
Record ctrie := mk_ctrie { t_arr : cedar; t_ids : Z; t_roots : Z -> Z }.

(** CedarTrie.hpp:70-105 _find_or_insert: id, is_new, search position.  Ids are taken
    modulo 2^32 by the caller ([factorid_t]); NO_VALUE (-1) and NO_PATH (-2) are the two
    results that mean absence, so a stored value is compared with both. *)
Definition foi1 (pos c : Z) (incr : bool) (t : ctrie) : option (Z * bool * Z * ctrie) :=
  do r <- find1 (t_arr t) pos c;
  let insert pos :=
    let ids := if incr then t_ids t + 1 else t_ids t in
    let '(p, d) := update1 pos c (if incr then ids else HIDDEN) (t_arr t) in
    Some (ids - 1, true, p, mk_ctrie d ids (t_roots t)) in
  match r with
  | inl _ => insert pos
  | inr (None, p) => insert p
  | inr (Some v, p) =>
      if (v =? -1) || (v =? -2) then insert p else Some (v - 1, false, p, t)
  end.
(** CedarTrie.hpp:249-270 find_or_insert *)
Definition cedar_find (pos c : Z) (t : ctrie) : option (Z * bool * Z * ctrie) :=
  if (c =? 0) || (c =? ESC) then
    do r <- foi1 pos ESC false t;
    let '(_, _, p, t1) := r in
    foi1 p (if c =? 0 then ESC0 else ESC) true t1
  else foi1 pos c true t.
(** CedarTrie.hpp:184-236 add_rootnode: for 0 and 255 below the escape node, which is
    made first if traverse does not find it.  [None]: an undefined access. *)
Definition cedar_add_root (c : Z) (t : ctrie) : option ctrie :=
  if negb (c =? 0) && negb (c =? ESC) then
    let '(p, d) := update1 0 c c (t_arr t) in
    Some (mk_ctrie d (t_ids t + 1) (fu (t_roots t) c p))
  else
    do r <- find1 (t_arr t) 0 ESC;
    let make p := update1 p ESC HIDDEN (t_arr t) in
    let '(p, d) := match r with
                   | inl _ => make 0
                   | inr (None, q) => make q
                   | inr (Some v, q) => if (v =? -1) || (v =? -2) then make q else (q, t_arr t)
                   end in
    let '(p, d) := update1 p (if c =? 0 then ESC0 else c) c d in
    Some (mk_ctrie d (t_ids t + 1) (fu (t_roots t) c p)).
(** CedarTrie.hpp:238-240 get_rootnode: the id is [c], the position the remembered one *)
Definition cedar_root (t : ctrie) (c : Z) : Z := t_roots t c.
(** CedarTrie.hpp:242-249 clear, then add_rootnode 0 .. k-1 (LZ78Compressor.hpp:79-84,
    LZWCompressor.hpp:52-61) *)
Definition cedar_init (k : nat) : option ctrie :=
  fold_left (fun o c => do t <- o; cedar_add_root (Z.of_nat c) t) (seq 0 k)
            (Some (mk_ctrie c_init 0 (fun _ => 0))).

(** ** The compressors with this dictionary; nodes are (id, position) *)
(** LZ78Compressor.hpp:92-131, unlimited dictionary; as [lz78_loop] (LZ.v) *)
Fixpoint clz78_loop (t : ctrie) (node pos parent : Z) (fc lastc : N) (text : list N)
  : option (list call) :=
  match text with
  | [] => if node =? 0 then Some []
          else Some [(Z.to_N parent, RInt 0 fc); (sext8 lastc, RLit)]
  | c :: text' =>
      do r <- cedar_find pos (Z.of_N c) t;
      let '(id, isnew, p, t1) := r in
      if isnew then
        do r <- clz78_loop t1 0 (cedar_root t1 0) 0 (fc + 1)%N c text';
        Some ((Z.to_N node, RInt 0 fc) :: (c, RLit) :: r)
      else clz78_loop t1 (id mod 2 ^ 32) p node fc c text'
  end.
Definition clz78_calls (text : list N) : option (list call) :=
  do t <- cedar_init 1; clz78_loop t 0 (cedar_root t 0) 0 0 0 text.
Definition clz78_compress (c : coder) (text : list N) : option (list N) :=
  do cs <- clz78_calls text; c_enc c [] cs.

(** LZWCompressor.hpp:67-101, unlimited dictionary; as [lzw_loop] (LZ.v) *)
Fixpoint clzw_loop (t : ctrie) (node pos : Z) (fc : N) (text : list N) : option (list call) :=
  match text with
  | [] => Some [(Z.to_N node, RInt 0 (fc + 256))]
  | c :: text' =>
      do r <- cedar_find pos (Z.of_N c) t;
      let '(id, isnew, p, t1) := r in
      if isnew then
        do r <- clzw_loop t1 (Z.of_N c) (cedar_root t1 (Z.of_N c)) (fc + 1)%N text';
        Some ((Z.to_N node, RInt 0 (fc + 256)) :: r)
      else clzw_loop t1 (id mod 2 ^ 32) p fc text'
  end.
Definition clzw_calls (text : list N) : option (list call) :=
  match text with
  | [] => Some []
  | c :: text' =>
      do t <- cedar_init 256;
      clzw_loop t (Z.of_N c) (cedar_root t (Z.of_N c)) 0 text'
  end.
Definition clzw_compress (c : coder) (text : list N) : option (list N) :=
  do cs <- clzw_calls text; c_enc c [] cs.
