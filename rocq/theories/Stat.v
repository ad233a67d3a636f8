(** Model of tudocomp_stat/StatPhase.hpp and PhaseData.hpp. *)
From Coq Require Import ZArith.
From Verif Require Import Base Json.
Local Open Scope Z_scope.

(** PhaseData.hpp:12-55.  The linked lists first_stat / first_child-next_sibling are lists;
    memory figures (ssize_t) and clock readings are unbounded integers. *)
Inductive pdata := PD {
  d_title : list N; d_start : Z; d_end : Z;
  d_off : Z; d_cur : Z; d_peak : Z;
  d_stats : list (list N * list N); d_sub : list pdata }.

(** A StatPhase object that has been started and not yet ended (StatPhase.hpp:52-58);
    the state is the chain s_current -> m_parent -> ... *)
Record phase := mk_phase { p_data : pdata; p_track : bool }.
Definition stack := list phase.

Definition add_mem (n : Z) (p : phase) : phase :=
  let d := p_data p in
  mk_phase (PD (d_title d) (d_start d) (d_end d) (d_off d) (d_cur d + n) (Z.max (d_peak d) (d_cur d + n))
               (d_stats d) (d_sub d)) (p_track p).
Definition sub_mem (n : Z) (p : phase) : phase :=
  let d := p_data p in
  mk_phase (PD (d_title d) (d_start d) (d_end d) (d_off d) (d_cur d - n) (d_peak d) (d_stats d) (d_sub d)) (p_track p).
Definition set_track (b : bool) (p : phase) : phase := mk_phase (p_data p) b.

(** StatPhase.hpp:73-79 track_alloc_internal *)
Fixpoint track_alloc (n : Z) (s : stack) : stack :=
  match s with
  | [] => []
  | p :: r => if p_track p then add_mem n p :: track_alloc n r else s
  end.
(** StatPhase.hpp:81-86 track_free_internal *)
Fixpoint track_free (n : Z) (s : stack) : stack :=
  match s with
  | [] => []
  | p :: r => if p_track p then sub_mem n p :: track_free n r else s
  end.

(** StatPhase.hpp:96-112 init: the parent is paused around the allocation of the
    PhaseData object and then resumed; [now] is the clock *)
Definition new_data (title : list N) (now off : Z) : pdata := PD title now 0 off 0 0 [] [].
Definition init (title : list N) (now : Z) (s : stack) : stack :=
  match s with
  | [] => [mk_phase (new_data title now 0) false]
  | p :: r => mk_phase (new_data title now (d_cur (p_data p))) false :: set_track true p :: r
  end.
Definition resume (s : stack) : stack := match s with [] => [] | p :: r => set_track true p :: r end.
Definition pause (s : stack) : stack := match s with [] => [] | p :: r => set_track false p :: r end.

(** StatPhase.hpp:114-128 finish; the root's data is deleted (second component None) *)
Definition set_end (now : Z) (d : pdata) : pdata :=
  PD (d_title d) (d_start d) now (d_off d) (d_cur d) (d_peak d) (d_stats d) (d_sub d).
Definition add_child (c : pdata) (p : phase) : phase :=
  let d := p_data p in
  mk_phase (PD (d_title d) (d_start d) (d_end d) (d_off d) (d_cur d) (d_peak d) (d_stats d) (d_sub d ++ [c])) (p_track p).
Definition finish (now : Z) (s : stack) : option (option pdata * stack) :=
  match s with
  | [] => None
  | p :: [] => Some (None, [])
  | p :: q :: r => let d := set_end now (p_data p) in Some (Some d, add_child d q :: r)
  end.

(** PhaseData.hpp:61-77 log_stat (the strings after std::to_string) *)
Definition add_stat (k v : list N) (p : phase) : phase :=
  let d := p_data p in
  mk_phase (PD (d_title d) (d_start d) (d_end d) (d_off d) (d_cur d) (d_peak d) (d_stats d ++ [(k, v)]) (d_sub d)) (p_track p).

(** The public operations; Split, End and Log act on the current phase. *)
Inductive op :=
| Start (title : list N) (now : Z)   (* StatPhase.hpp:233-237, the constructor *)
| End (now : Z)                      (* StatPhase.hpp:251-256, the destructor *)
| Split (title : list N) (now : Z)   (* StatPhase.hpp:264-279 *)
| Alloc (n : Z)                      (* StatPhase.hpp:178-180 track_alloc, via malloc.cpp *)
| Free (n : Z)                       (* StatPhase.hpp:190-192 track_free *)
| Pause                              (* StatPhase.hpp:198-200 *)
| Resume                             (* StatPhase.hpp:206-208 *)
| Log (k v : list N)                 (* StatPhase.hpp:218-220 log -> :298-304 log_stat *)
| Report (now : Z).                  (* StatPhase.hpp:311-321 to_json of the current phase: effect on the phase *)

Definition set_off (o : Z) (s : stack) : stack :=
  match s with
  | [] => []
  | p :: r => let d := p_data p in
      mk_phase (PD (d_title d) (d_start d) (d_end d) o (d_cur d) (d_peak d) (d_stats d) (d_sub d)) (p_track p) :: r
  end.
(** [None]: there is no phase to end or split *)
Definition step (o : op) (s : stack) : option stack :=
  match o with
  | Start t now => Some (resume (init t now s))
  | End now => do (_, s) <- finish now (pause s); Some s
  | Split t now =>
      do (old, s) <- finish now (pause s);
      let s := init t now s in
      let s := match old with Some d => set_off (d_off d + d_cur d) s | None => s end in
      Some (resume s)
  | Alloc n => Some (track_alloc n s)
  | Free n => Some (track_free n s)
  | Pause => Some (pause s)
  | Resume => Some (resume s)
  | Log k v => Some (match s with [] => [] | p :: r => set_track true (add_stat k v (set_track false p)) :: r end)
  | Report now => Some (match s with [] => [] | p :: r => mk_phase (set_end now (p_data p)) true :: r end)
  end.
Fixpoint steps (os : list op) (s : stack) : option stack :=
  match os with [] => Some s | o :: r => do s <- step o s; steps r s end.

(** ** PhaseData::to_json (PhaseData.hpp:79-110); [None]: a string of 64 or more characters was
    copied by strncpy into a 64 byte buffer without terminator, and reading it back is undefined *)
Definition cbuf (s : list N) : option (list N) := if (length s <? 64)%nat then Some s else None.
Definition kw_title : list N := [116;105;116;108;101]%N.
Definition kw_timeStart : list N := [116;105;109;101;83;116;97;114;116]%N.
Definition kw_timeEnd : list N := [116;105;109;101;69;110;100]%N.
Definition kw_memOff : list N := [109;101;109;79;102;102]%N.
Definition kw_memPeak : list N := [109;101;109;80;101;97;107]%N.
Definition kw_memFinal : list N := [109;101;109;70;105;110;97;108]%N.
Definition kw_key : list N := [107;101;121]%N.
Definition kw_value : list N := [118;97;108;117;101]%N.
Definition kw_stats : list N := [115;116;97;116;115]%N.
Definition kw_sub : list N := [115;117;98]%N.
Fixpoint stats_json (l : list (list N * list N)) : option (list jv) :=
  match l with
  | [] => Some []
  | (k, v) :: r => do k <- cbuf k; do v <- cbuf v; do r <- stats_json r;
                   Some (JObj (jset (jset [] kw_key (JStr k)) kw_value (JStr v)) :: r)
  end.
Fixpoint to_json (d : pdata) : option jv :=
  match d with
  | PD title st en off cur peak stats sub =>
      do t <- cbuf title;
      do sj <- stats_json stats;
      do subj <- (fix go (l : list pdata) : option (list jv) :=
                    match l with
                    | [] => Some []
                    | d :: r => do j <- to_json d; do r <- go r; Some (j :: r)
                    end) sub;
      let o := jset [] kw_title (JStr t) in
      let o := jset o kw_timeStart (JInt st) in
      let o := jset o kw_timeEnd (JInt en) in
      let o := jset o kw_memOff (JInt off) in
      let o := jset o kw_memPeak (JInt peak) in
      let o := jset o kw_memFinal (JInt cur) in
      let o := jset o kw_stats (JArr sj) in
      let o := jset o kw_sub (JArr subj) in
      Some (JObj o)
  end.

(** StatPhase.hpp:311-321 StatPhase::to_json of the current phase: the object it returns *)
Definition report (now : Z) (s : stack) : option jv :=
  match s with [] => None | p :: _ => to_json (set_end now (p_data p)) end.
