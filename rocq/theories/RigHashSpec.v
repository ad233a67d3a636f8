(** What a user expects of a hash map: a finite map and the answers of its operations. *)
From Verif Require Import Base.
Local Open Scope nat_scope.

Inductive map_op (K V : Type) : Type :=
| MInsert (k : K) (v : V)          (* insert({k, v}) *)
| MUpdate (k : K) (g : V -> V)     (* m[k] = g(m[k]); m[k] of a new key is the default value *)
| MErase (k : K)
| MClear
| MRehash (n : nat)
| MReserve (n : nat)
| MAt (k : K)
| MCount (k : K)
| MSize.
Arguments MInsert {K V}. Arguments MUpdate {K V}. Arguments MErase {K V}. Arguments MClear {K V}.
Arguments MRehash {K V}. Arguments MReserve {K V}. Arguments MAt {K V}. Arguments MCount {K V}. Arguments MSize {K V}.

Inductive map_ans (V : Type) : Type :=
| AUnit | ABool (b : bool) | AVal (v : V) | AThrow | ANat (n : nat).
Arguments AUnit {V}. Arguments ABool {V}. Arguments AVal {V}. Arguments AThrow {V}. Arguments ANat {V}.

Section S.
  Context {K V : Type} (keq : K -> K -> bool) (dflt : V).
  (** the map as a list of entries with distinct keys *)
  Fixpoint m_get (l : list (K * V)) (k : K) : option V :=
    match l with [] => None | (k', v) :: l => if keq k' k then Some v else m_get l k end.
  Definition m_del (l : list (K * V)) (k : K) : list (K * V) := filter (fun x => negb (keq (fst x) k)) l.
  Definition m_step (l : list (K * V)) (o : map_op K V) : list (K * V) * map_ans V :=
    match o with
    | MInsert k v => match m_get l k with Some _ => (l, ABool false) | None => ((k, v) :: l, ABool true) end
    | MUpdate k g => let w := g (match m_get l k with Some v => v | None => dflt end) in ((k, w) :: m_del l k, AVal w)
    | MErase k => (m_del l k, ANat (match m_get l k with Some _ => 1 | None => 0 end))
    | MClear => ([], AUnit)
    | MRehash _ | MReserve _ => (l, AUnit)
    | MAt k => (l, match m_get l k with Some v => AVal v | None => AThrow end)
    | MCount k => (l, ANat (match m_get l k with Some _ => 1 | None => 0 end))
    | MSize => (l, ANat (length l))
    end.
  Fixpoint m_run (l : list (K * V)) (os : list (map_op K V)) : list (K * V) * list (map_ans V) :=
    match os with
    | [] => (l, [])
    | o :: os => let (l', a) := m_step l o in let (l'', r) := m_run l' os in (l'', a :: r)
    end.
  Definition op_key (o : map_op K V) : option K :=
    match o with MInsert k _ | MUpdate k _ | MErase k | MAt k | MCount k => Some k | _ => None end.
End S.
