(** Coverage of the source by tokens, and white space control, stated on a list of
    tokens with their spans. *)
From Verif Require Import Base Utf8 Ext Errors Syntax SearchSpec Lexer LexSpec Wp.

Section TileSpec.
Variable sx : syntax.
Variable source : str.

(** The token is a hyphenated opening / closing tag: its span is a delimiter
    configured with a hyphen. *)
Definition hyphen_tag (opn : bool) (t : token * span) : Prop :=
  exists k, tag_at sx source k (sp_m (snd t)) (sp_n (snd t)) /\ fst t = tag_token k /\
    opening k = opn /\ hyphenated k = true.
Definition after_hyphen (prev : option (token * span)) : Prop :=
  exists t, prev = Some t /\ hyphen_tag false t.
Definition before_hyphen (rest : list (token * span)) : Prop :=
  exists t ts, rest = t :: ts /\ hyphen_tag true t.

(** [tokens_cover lo prev ts]: the tokens follow each other up to the end of the
    source, starting at [lo], where [prev] ended.  The only text between two tokens
    is white space next to a hyphenated tag. *)
Fixpoint tokens_cover (lo : nat) (prev : option (token * span)) (ts : list (token * span)) : Prop :=
  match ts with
  | [] => lo = length source
  | (t, sp) :: ts' =>
    (sp_m sp = lo \/
     lo < sp_m sp /\ white (sub source lo (sp_m sp)) /\ (after_hyphen prev \/ before_hyphen ts)) /\
    span_ok source sp /\ sp_n sp <= length source /\
    tokens_cover (sp_n sp) (Some (t, sp)) ts'
  end.

(** Where the token after a raw text starts. *)
Definition next_start (ts : list (token * span)) : nat :=
  match ts with (_, sp) :: _ => sp_m sp | [] => length source end.

(** [raw_trimmed lo prev ts]: every raw text between [lo] (the end of the tag before
    it) and [hi] (the start of the tag after it) has lost exactly its leading white
    space if the tag before it is a hyphenated closing tag, exactly its trailing
    white space if the tag after it is a hyphenated opening tag, and nothing else. *)
Fixpoint raw_trimmed (lo : nat) (prev : option (token * span)) (ts : list (token * span)) : Prop :=
  match ts with
  | [] => True
  | (t, sp) :: ts' =>
    (t = TRaw ->
     let hi := next_start ts' in
     (after_hyphen prev -> white (sub source lo (sp_m sp)) /\ ~ starts_white (sub source (sp_m sp) (sp_n sp))) /\
     (~ after_hyphen prev -> sp_m sp = lo) /\
     (before_hyphen ts' -> white (sub source (sp_n sp) hi) /\ ~ ends_white (sub source lo (sp_n sp))) /\
     (~ before_hyphen ts' -> sp_n sp = hi)) /\
    raw_trimmed (sp_n sp) (Some (t, sp)) ts'
  end.
End TileSpec.
