(** Property theorems: delimiter search (C01). *)
From Verif Require Import Base Utf8 Syntax AhoCorasick SearchSpec SyntaxSpec AcProof.

(** C01.  For every configurable syntax the engine's searcher can be built, and a
    search from any offset of any text never panics or diverges: it reports a
    delimiter iff one occurs at or after the offset, and the reported one is the
    leftmost, among those the longest, and among equal texts the first configured
    ([best], SearchSpec.v). *)
Theorem C01_search_leftmost_longest (sx : syntax) : user_syntax sx ->
  exists sr, @searcher_new unit sx = Ok sr /\
  forall h at_,
    match @find_at unit sr h at_ with
    | Ok (Some (k, i, j)) => best sx h at_ k i j
    | Ok None => no_occurrence sx h at_
    | _ => False
    end.
Proof.
  intros Hu. destruct (@find_at_spec unit unit sx) as (sr & H1 & H2).
  { intros k p Hin. exact (proj1 (user_syntax_pat sx Hu k p Hin)). }
  exists sr. split; [exact H1|]. intros h at_. destruct (H2 h at_) as (r & -> & Hr). exact Hr.
Qed.
Print Assumptions C01_search_leftmost_longest.

(** Beside it: the default syntax meets the hypothesis. *)
Example C01_nonvacuous : user_syntax default_syntax.
Proof. exact default_user_syntax. Qed.
Example C01_case : exists sr, @searcher_new unit default_syntax = Ok sr /\
  @find_at unit sr (s2b "a{b {{- c -}}") 0 = Ok (Some (BeginExprTrimK, 4, 7)).
Proof. eexists. split; vm_compute; reflexivity. Qed.
