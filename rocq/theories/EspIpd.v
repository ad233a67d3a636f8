(** Model of the IPD maps of the ESP compressor (compressors/esp/StdUnorderedMapIPD.hpp, HashMapIPD.hpp,
    DynamicSizeIPD.hpp), of GrammarRules.hpp over any of them and of generate_grammar with the chosen map. *)
From Verif Require Import Base BitIO IntCodes Esp RigHash RigHashSpec.
Local Open Scope N_scope.

Notation key := (N * N)%type.
Definition key_eqb (a b : key) : bool := (fst a =? fst b) && (snd a =? snd b).

(** The interface of IPDMap<2, K, V>: constructor (bucket count, empty key), access, for_all (the visited entries in
    their order), size.  [access]: the updater gets the reference; it has a state of its own and returns the new value.
    [None]: undefined behaviour or an endless loop. *)
Record ipd (St : Type) := mk_ipd {
  i_new : nat -> key -> St;
  i_access : forall (S : Type), (S -> N -> S * N) -> S -> key -> St -> option (S * N * St);
  i_all : St -> list (key * N);
  i_size : St -> nat }.
Arguments mk_ipd {St}. Arguments i_new {St}. Arguments i_access {St} _ {S}. Arguments i_all {St}. Arguments i_size {St}.

(** ** StdUnorderedMapIPD.hpp:16-41.  The std::unordered_map: the entries in the order of their insertion; [ord]: the
    order of iteration *)
Fixpoint std_set (l : list (key * N)) (k : key) (v : N) : list (key * N) :=
  match l with
  | [] => [(k, v)]
  | e :: l => if key_eqb (fst e) k then (fst e, v) :: l else e :: std_set l k v
  end.
Definition std_ipd (ord : list (key * N) -> list (key * N)) : ipd (list (key * N)) :=
  mk_ipd (fun _ _ => [])
    (fun S f s k l =>
       let (s', v) := f s (match m_get key_eqb l k with Some v => v | None => 0 end) in Some (s', v, std_set l k v))
    ord (@length _).

(** ** HashMapIPD.hpp:17-43.  [hash]: std::hash<Array<2, T>> *)
Definition hash_ipd (hash : key -> nat) : ipd (hm key N) :=
  mk_ipd (fun c e => hm_new 0 c e)
    (fun S f s k m => hm_access key_eqb hash 0 f s k m)
    (hm_all key_eqb) (@h_size _ _).

(** ** DynamicSizeIPD.hpp:58-223 *)
(** :130-132 m_empty, m_map_bits, *m_map *)
Record dynst (St : Type) := mk_dyn { d_empty : key; d_bits : N; d_map : St }.
Arguments mk_dyn {St}. Arguments d_empty {St}. Arguments d_bits {St}. Arguments d_map {St}.
(** :31-38 cast_to to uint_t<B>; cast_from is the identity *)
Definition cast2 (B : N) (k : key) : key := (fst k mod 2 ^ B, snd k mod 2 ^ B).
(** :60-66 *)
Definition key_max (k : key) : N := N.max (fst k) (snd k).

Section DYN.
  (** the map of the sub algorithm with keys and values of a number of bits: its code is the same, its hash function
      may differ *)
  Context {St : Type} (inner : N -> ipd St).
  (** :107-118 can_fit_value, can_fit_key *)
  Definition can_fit_value (d : dynst St) (v : N) : bool := bits_for v <=? d_bits d.
  Definition can_fit_key (d : dynst St) (k : key) : bool :=
    if key_eqb (cast2 (d_bits d) k) (cast2 (d_bits d) (d_empty d)) then false else bits_for (key_max k) <=? d_bits d.
  (** :120-127 DynamicMapOf::access *)
  Definition mapof_access {S : Type} (f : S -> N -> S * N) (s : S) (k : key) (d : dynst St) : option (S * N * dynst St) :=
    do (s', r, m) <- i_access (inner (d_bits d)) (fun s v => let (s', v') := f s v in (s', v' mod 2 ^ d_bits d)) s
                       (cast2 (d_bits d) k) (d_map d);
    Some (s', r, mk_dyn (d_empty d) (d_bits d) m).
  (** :90-92, :136-139 new_map *)
  Definition new_map (B : N) (c : nat) (e : key) : dynst St := mk_dyn e B (i_new (inner B) c (cast2 B e)).
  (** :148-156; more than 64 bits: no map is made and the copy uses a null pointer *)
  Definition map_width (bits : N) : option N :=
    if bits <=? 8 then Some 8 else if bits <=? 16 then Some 16 else if bits <=? 24 then Some 24
    else if bits <=? 32 then Some 32 else if bits <=? 40 then Some 40 else if bits <=? 48 then Some 48
    else if bits <=? 56 then Some 56 else if bits <=? 64 then Some 64 else None.
  (** :141-167 resize *)
  Definition dyn_resize (d : dynst St) (bits : N) : option (dynst St) :=
    do nb <- map_width bits;
    fold_left (fun o e => do o <- o; do (_, _, o') <- mapof_access (fun (_ : unit) _ => (tt, snd e)) tt (fst e) o; Some o')
      (i_all (inner (d_bits d)) (d_map d))
      (Some (new_map nb (i_size (inner (d_bits d)) (d_map d)) (d_empty d))).
  (** :169-176 resize_key, resize_val *)
  Definition resize_key (d : dynst St) (k : key) : option (dynst St) := dyn_resize d (N.max (bits_for (key_max k)) (d_bits d + 1)).
  Definition resize_val (d : dynst St) (v : N) : option (dynst St) := dyn_resize d (N.max (bits_for v) (d_bits d + 1)).
  (** :184-213 access *)
  Definition dyn_access {S : Type} (f : S -> N -> S * N) (s : S) (k : key) (d : dynst St) : option (S * N * dynst St) :=
    do d <- (if can_fit_key d k then Some d else resize_key d k);
    do (c, _, d') <- mapof_access (fun (c : S * N * bool) v =>
                        let '(s, _, _) := c in
                        let (s', copy) := f s v in
                        if can_fit_value d copy then ((s', copy, false), copy) else ((s', copy, true), v))
                      (s, 0, false) k d;
    let '(s', copy, value_resize) := c in
    if value_resize : bool then
      do d2 <- resize_val d' copy;
      do (_, _, d3) <- mapof_access (fun (_ : unit) _ => (tt, copy)) tt k d2;
      Some (s', copy, d3)
    else Some (s', copy, d').
  (** :178-182, :215-222 *)
  Definition dyn_ipd : ipd (dynst St) :=
    mk_ipd (fun c e => new_map 8 c e) (fun S f s k d => dyn_access f s k d)
      (fun d => i_all (inner (d_bits d)) (d_map d)) (fun d => i_size (inner (d_bits d)) (d_map d)).
End DYN.

(** ** GrammarRules.hpp over an IPD *)
Section GR.
  Context {St : Type} (I : ipd St).
  (** :27-31 n2 and counter *)
  Record gr := mk_gr { g_counter : N; g_n2 : St }.
  (** :35-38 and :21-23 *)
  Definition gr_new (start : N) : gr := mk_gr (start + 1) (i_new I 0 (2 ^ 64 - 1, 2 ^ 64 - 1)).
  (** :45-49 the updater, and access *)
  Definition gr_updater (counter v : N) : N * N := if v =? 0 then (counter + 1, counter) else (counter, v).
  Definition gri_access (g : gr) (k : key) : option (N * gr) :=
    do (c, r, st) <- i_access I gr_updater (g_counter g) k (g_n2 g); Some (r - 1, mk_gr c st).
  (** :40-80 add (statistics left out) *)
  Definition gri_add (g : gr) (v : list N) : option (N * gr) :=
    match v with
    | [a; b] => gri_access g (a, b)
    | [a; b; c] => do (r, g1) <- gri_access g (a, b); gri_access g1 (r, c)
    | _ => None
    end.
  (** EspContextImpl.hpp:86-97; initial_counter() - 1 is [start] *)
  Fixpoint layeri (start width : N) (g : gr) (s : list N) (bs : list block) : option (list N * gr) :=
    match bs with
    | [] => Some ([], g)
    | (len, _) :: bs =>
        do (r, g1) <- gri_add g (firstn len s);
        do (l, g2) <- layeri start width g1 (skipn len s) bs;
        Some ((r - start) mod 2 ^ width :: l, g2)
    end.
  (** EspContextImpl.hpp:113-131: the entries are written to the places given by their values; a place outside of
      the array is [None] *)
  Definition store_rules (rules : list (N * N)) (start prev : N) (g : gr) : option (list (N * N)) :=
    let counter := 256 + N.of_nat (length rules) in
    fold_left (fun o e => do rv <- o;
        let i := N.to_nat (counter + (snd e - (start + 1)) - 256) in
        if (i <? length rv)%nat then Some (upd rv i (fst (fst e) + prev, snd (fst e) + prev)) else None)
      (i_all I (g_n2 g)) (Some (rules ++ repeat (0, 0) (N.to_nat (g_counter g - (start + 1))))).
  (** EspContextImpl.hpp:42-155 *)
  Fixpoint roundsi (fuel : nat) (rules : list (N * N)) (prev alphabet : N) (s : list N) : option slp :=
    match s, fuel with
    | [], _ => Some (mk_slp rules 0 true)
    | [x], _ => Some (mk_slp rules (x + prev) false)
    | _, O => None
    | _, S fuel =>
        do bs0 <- split (length s) alphabet s;
        do bs <- adjust_blocks bs0;
        do (l, g) <- layeri alphabet (bits_for (N.of_nat (length s) - 1)) (gr_new alphabet) s bs;
        do rules' <- store_rules rules alphabet prev g;
        roundsi fuel rules' (256 + N.of_nat (length rules)) (g_counter g - (alphabet + 1)) l
    end.
  (** EspContextImpl.hpp:14-165 *)
  Definition generate_grammar_ipd (text : list N) : option slp := roundsi (length text) [] 0 256 text.
  (** EspCompressor.hpp:35-71 with the plain SLP coder *)
  Definition esp_compress_ipd (text : list N) : option (list N) :=
    do g <- generate_grammar_ipd text; Some (bits_file (plain_slp_bits g)).
End GR.
Arguments gr : clear implicits.
