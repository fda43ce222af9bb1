(** src/compile/search/ahocorasick/{build,mod,state}.rs and src/compile/search/mod.rs *)
From Verif Require Import Base Syntax.

(** state.rs 7-13 *)
Definition FAIL : nat := 0.
Definition DEAD : nat := 1.
Definition START : nat := 2.

(** mod.rs 27-32 [Pattern] *)
Record pattern := mkpat { pat_id : nat; pat_len : nat }.

(** state.rs 17-29 [State]; [trans : [S; 256]] is a function of the byte. *)
Record acstate := mkst {
  st_trans : byte -> nat;
  st_fail : nat;
  st_matches : list pattern;
  st_depth : nat
}.

Definition automaton := list acstate.

(** build.rs 299-301 [all]: the bytes 0..=255 in order *)
Definition all_bytes : list byte :=
  map (fun n => match Byte.of_nat n with Some b => b | None => x00 end) (seq 0 256).

(** build.rs 240-247 [push_state] *)
Definition push_state (sts : automaton) (depth : nat) : automaton * nat :=
  (sts ++ [mkst (fun _ => FAIL) START [] depth], length sts).

(** build.rs 260-266 / mod.rs 100-102: indexing panics when out of range *)
Definition state {E} (sts : automaton) (id : nat) : outcome E acstate := unwrap (nth_error sts id).

(** state.rs 38-40 *)
Definition is_match (s : acstate) : bool := match st_matches s with [] => false | _ => true end.

(** build.rs 283-285 [set_transition] *)
Definition set_transition (b : byte) (to : nat) (s : acstate) : acstate :=
  mkst (fun b' => if Byte.eqb b' b then to else st_trans s b') (st_fail s) (st_matches s)
       (st_depth s).
(** build.rs 279-281 [push_match] *)
Definition push_match (p : pattern) (s : acstate) : acstate :=
  mkst (st_trans s) (st_fail s) (st_matches s ++ [p]) (st_depth s).
(** [self.state_mut(id).fail = f] *)
Definition set_fail (f : nat) (s : acstate) : acstate :=
  mkst (st_trans s) f (st_matches s) (st_depth s).

(** [self.state_mut(id)] then an update; panics when out of range *)
Definition state_mut {E} (sts : automaton) (id : nat) (f : acstate -> acstate)
  : outcome E automaton :=
  if id <? length sts then Ok (upd id f sts) else Panic.

(** build.rs 112-122: the inner loop of [build_initial_trie] *)
Fixpoint trie_walk {E} (sts : automaton) (id depth : nat) (p : str)
  : outcome E (automaton * nat) :=
  match p with
  | [] => Ok (sts, id)
  | b :: p' =>
    let* s := state sts id in
    let next := st_trans s b in
    if next =? FAIL then
      let '(sts1, next) := push_state sts (depth + 1) in
      let* sts2 := state_mut sts1 id (set_transition b next) in
      trie_walk sts2 next (depth + 1) p'
    else trie_walk sts next (depth + 1) p'
  end.

(** build.rs 102-127 [build_initial_trie] *)
Fixpoint build_initial_trie {E} (sts : automaton) (patterns : list (nat * str))
  : outcome E automaton :=
  match patterns with
  | [] => Ok sts
  | (pid, p) :: rest =>
    let* (sts1, id) := trie_walk sts START 0 p in
    let* sts2 := state_mut sts1 id (push_match (mkpat pid (length p))) in
    build_initial_trie sts2 rest
  end.

(** build.rs 68-73, 77-82, 90-95: "for byte in all() { if next_state(byte) == from
    { set_transition(byte, to) } }".  Each iteration reads and writes only the
    entry of its own byte, so the loop is this pointwise update. *)
Definition redirect (from to : nat) (s : acstate) : acstate :=
  mkst (fun b => if st_trans s b =? from then to else st_trans s b)
       (st_fail s) (st_matches s) (st_depth s).

(** build.rs 182-187: follow failure links until one has a transition on [b] *)
Fixpoint fail_chain {E} (fuel : nat) (sts : automaton) (id : nat) (b : byte)
  : outcome E nat :=
  match fuel with
  | 0 => OutOfFuel
  | S fuel' =>
    let* s := state sts id in
    let next := st_trans s b in
    if next =? FAIL then fail_chain fuel' sts (st_fail s) b else Ok next
  end.

(** build.rs 222-238 [copy_matches] *)
Definition copy_matches {E} (sts : automaton) (src dst : nat) : outcome E automaton :=
  if src =? dst then Panic
  else
    let* s := state sts src in
    state_mut sts dst (fun d => mkst (st_trans d) (st_fail d) (st_matches d ++ st_matches s)
                                     (st_depth d)).

(** usize subtraction: underflow panics (debug build) *)
Definition usub {E} (a b : nat) : outcome E nat := if a <? b then Panic else Ok (a - b).

Definition queue := list (nat * option nat).

(** build.rs 134-156: the first loop of [fill_failure_transitions] *)
Fixpoint init_queue {E} (bytes : list byte) (sts : automaton) (q : queue)
  : outcome E (automaton * queue) :=
  match bytes with
  | [] => Ok (sts, q)
  | b :: bytes' =>
    let* start := state sts START in
    let next := st_trans start b in
    if next =? START then init_queue bytes' sts q
    else
      let match_depth := if is_match start then Some 0 else None in
      let* s := state sts next in
      let* sts' := if is_match s then state_mut sts next (set_fail DEAD) else Ok sts in
      init_queue bytes' sts' (q ++ [(next, match_depth)])
  end.

(** build.rs 161-207: one iteration of "for byte in all()" for state [curr] *)
Definition fill_byte {E} (sts : automaton) (q : queue) (curr : nat)
    (match_depth : option nat) (b : byte) : outcome E (automaton * queue) :=
  let* s := state sts curr in
  let next := st_trans s b in
  if next =? FAIL then Ok (sts, q)
  else
    let* n := state sts next in
    let* next_match_depth :=
      match match_depth with
      | Some d => Ok (Some d)
      | None =>
        if is_match n then
          let* l := unwrap (option_map pat_len (hd_error (st_matches n))) in
          let* d := usub (st_depth n) l in
          Ok (Some (d + 1))
        else Ok None
      end in
    let q' := q ++ [(next, next_match_depth)] in
    let* fail := fail_chain (length sts) sts (st_fail s) b in
    let assign :=
      (let* sts1 := state_mut sts next (set_fail fail) in
       let* sts2 := copy_matches sts1 fail next in
       Ok (sts2, q')) in
    match next_match_depth with
    | Some md =>
      let* f := state sts fail in
      let* d := usub (st_depth n) md in
      if st_depth f <? d + 1 then
        let* sts1 := state_mut sts next (set_fail DEAD) in
        Ok (sts1, q')
      else if st_fail n =? START then Panic
      else assign
    | None => assign
    end.

Fixpoint fill_bytes {E} (bytes : list byte) (sts : automaton) (q : queue) (curr : nat)
    (match_depth : option nat) : outcome E (automaton * queue) :=
  match bytes with
  | [] => Ok (sts, q)
  | b :: bytes' =>
    let* (sts', q') := fill_byte sts q curr match_depth b in
    fill_bytes bytes' sts' q' curr match_depth
  end.

(** build.rs 158-220: the main loop of [fill_failure_transitions]; one unit of
    fuel per dequeued state *)
Fixpoint fill_loop {E} (fuel : nat) (sts : automaton) (q : queue) : outcome E automaton :=
  match q with
  | [] => Ok sts
  | (curr, match_depth) :: q0 =>
    match fuel with
    | 0 => OutOfFuel
    | S fuel' =>
      let prev_len := length q0 in
      let* (sts1, q1) := fill_bytes all_bytes sts q0 curr match_depth in
      let* s := state sts1 curr in
      let* sts2 := if (length q1 =? prev_len) && is_match s
                   then state_mut sts1 curr (set_fail DEAD) else Ok sts1 in
      fill_loop fuel' sts2 q1
    end
  end.

(** build.rs 129-220 *)
Definition fill_failure_transitions {E} (sts : automaton) : outcome E automaton :=
  let* (sts1, q) := init_queue all_bytes sts [] in
  fill_loop (length sts) sts1 q.

(** build.rs 55-100 [build] *)
Definition ac_build {E} (patterns : list (nat * str)) : outcome E automaton :=
  let '(s0, _) := push_state [] 0 in
  let '(s1, _) := push_state s0 0 in
  let '(s2, _) := push_state s1 0 in
  let* s3 := build_initial_trie s2 patterns in
  let* s4 := state_mut s3 START (redirect FAIL START) in
  let* s5 := state_mut s4 DEAD (redirect FAIL DEAD) in
  let* s6 := fill_failure_transitions s5 in
  let* start := state s6 START in
  if is_match start then state_mut s6 START (redirect START DEAD) else Ok s6.

(** mod.rs 21-25 [Match] *)
Record ac_match := mkmatch { m_pattern : pattern; m_end : nat }.

(** mod.rs 76-81 [get_match], match_id = 0 *)
Definition get_match {E} (sts : automaton) (id : nat) (end_ : nat) : outcome E (option ac_match) :=
  let* s := state sts id in
  Ok (option_map (fun p => mkmatch p end_) (hd_error (st_matches s))).

(** mod.rs 83-92 [next_state] *)
Definition next_state {E} (sts : automaton) (id : nat) (b : byte) : outcome E nat :=
  fail_chain (length sts) sts id b.

(** mod.rs 54-72: the loop of [find_at]; [rest] is haystack[at..].  The two
    debug assertions are modelled as panics. *)
Fixpoint find_loop {E} (sts : automaton) (st : nat) (at_ : nat) (rest : str)
    (last : option ac_match) : outcome E (option ac_match) :=
  match rest with
  | [] => Ok last
  | b :: rest' =>
    let* st' := next_state sts st b in
    if st' =? FAIL then Panic
    else if st' =? DEAD then
      match last with Some m => Ok (Some m) | None => Panic end
    else
      let* m := get_match sts st' (at_ + 1) in
      find_loop sts st' (at_ + 1) rest' (match m with Some m => Some m | None => last end)
  end.

(** mod.rs 45-74 [AhoCorasick::find_at] *)
Definition ac_find_at {E} (sts : automaton) (haystack : str) (at_ : nat)
  : outcome E (option ac_match) :=
  let* last := get_match sts START at_ in
  find_loop sts START at_ (skipn at_ haystack) last.

(** search/mod.rs 8-11 [Searcher] *)
Definition searcher := automaton.

(** search/mod.rs 12-15 [Searcher::new] *)
Definition searcher_new {E} (sx : syntax) : outcome E searcher :=
  ac_build (map (fun kp => (kind_usize (fst kp), snd kp)) sx).

(** search/mod.rs 17-25 [Searcher::find_at] *)
Definition find_at {E} (s : searcher) (haystack : str) (at_ : nat)
  : outcome E (option (kind * nat * nat)) :=
  let* m := ac_find_at s haystack at_ in
  match m with
  | None => Ok None
  | Some m =>
    let* k := kind_from_usize (pat_id (m_pattern m)) in
    let* j := usub (m_end m) (pat_len (m_pattern m)) in
    Ok (Some (k, j, m_end m))
  end.

(** search/mod.rs 27-37 [Searcher::starts_with] *)
Definition starts_with {E} (s : searcher) (haystack : str) (at_ : nat)
  : outcome E (option (kind * nat)) :=
  let* m := find_at s haystack at_ in
  match m with
  | None => Ok None
  | Some (k, i, j) => if at_ =? i then Ok (Some (k, j)) else Ok None
  end.

(** Checks against the unit tests in search/ahocorasick/mod.rs 120-291 are in
    Tests.v. *)
