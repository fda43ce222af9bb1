(** src/error.rs *)
From Verif Require Import Base Utf8 Ext.

(** src/types/span.rs 7-11 *)
Record span := mkspan { sp_m : nat; sp_n : nat }.

(** src/types/span.rs 14-18 [Span::combine] *)
Definition combine_span (a b : span) : span :=
  mkspan (Nat.min (sp_m a) (sp_m b)) (Nat.max (sp_n a) (sp_n b)).

(** src/types/span.rs 21-28 [&source[span]] *)
Definition index_span {E} (s : str) (sp : span) : outcome E str := slice s (sp_m sp) (sp_n sp).

(** src/error.rs 22-60 [ErrorKind]; the io error is represented by a code chosen
    by the writer oracle. *)
Inductive ekind :=
| KSyntax | KSerialize | KRender | KFilter | KFormat | KIo (code : N).

(** src/error.rs 218-229 *)
Record pretty := mkpretty { p_ln : nat; p_col : nat; p_width : nat; p_text : str }.

(** src/error.rs 7-20 *)
Record error := mkerror {
  e_kind : ekind;
  e_name : option str;
  e_reason : option str;
  e_pretty : option pretty
}.

Notation res := (outcome error).

(** [str::split_terminator('\n')]: the lines of [s]; an empty last piece is
    dropped. *)
Fixpoint split_lines_aux (cur : str) (s : str) : list str :=
  match s with
  | [] => [rev cur]
  | b :: s' => if Byte.eqb b x0a then rev cur :: split_lines_aux [] s'
               else split_lines_aux (b :: cur) s'
  end.
Definition split_terminator (s : str) : list str :=
  let ls := split_lines_aux [] s in
  match rev ls with
  | [] :: r => rev r
  | _ => ls
  end.

Section WithExt.
Context `{X : Ext}.

(** src/error.rs 278-291 [to_ln_col]; the loop variable [n] is the accumulated
    offset, [i] the line number. *)
Fixpoint to_ln_col_loop (lines : list str) (i n offset : nat) : option (nat * nat) :=
  match lines with
  | [] => None
  | line :: rest =>
    let len := display_width line + 1 in
    if offset <? n + len then Some (i, offset - n)
    else to_ln_col_loop rest (S i) (n + len) offset
  end.
Definition to_ln_col (lines : list str) (offset : nat) : nat * nat :=
  match to_ln_col_loop lines 0 0 offset with
  | Some p => p
  | None => (length lines,
             match rev lines with l :: _ => display_width l | [] => 0 end)
  end.

(** src/error.rs 231-246 [Pretty::build]; panics if the span is not a slice of
    the source or if the source has no line. *)
Definition build_pretty (source : str) (sp : span) : res pretty :=
  let lines := split_terminator source in
  let '(ln, col) := to_ln_col lines (sp_m sp) in
  let* s := index_span source sp in
  let width := Nat.max 1 (display_width s) in
  let* text := match nth_error lines ln with
               | Some l => Ok l
               | None => unwrap (hd_error (rev lines))
               end in
  Ok (mkpretty ln col width text).

(** src/error.rs 64-72 [Error::syntax] (as [return Err(..)]) *)
Definition err_syntax {A} (reason : str) (source : str) (sp : span) : res A :=
  let* p := build_pretty source sp in
  Err (mkerror KSyntax None (Some reason) (Some p)).

(** src/error.rs 74-82 [Error::render] *)
Definition err_render {A} (reason : str) (source : str) (sp : span) : res A :=
  let* p := build_pretty source sp in
  Err (mkerror KRender None (Some reason) (Some p)).

(** src/error.rs 84-92 *)
Definition err_max_include_depth {A} (max : N) : res A :=
  Err (mkerror KRender None
         (Some (s2b "reached maximum include depth (" ++ show_N max ++ s2b ")")) None).

(** src/error.rs 94-98 [with_template_name]: [get_or_insert] *)
Definition with_template_name (e : error) (name : str) : error :=
  match e_name e with
  | Some _ => e
  | None => mkerror (e_kind e) (Some name) (e_reason e) (e_pretty e)
  end.

(** src/error.rs 101-106 [enrich]: [get_or_insert_with] (builds only if absent) *)
Definition err_enrich {A} (e : error) (source : str) (sp : span) : res A :=
  match e_pretty e with
  | Some _ => Err e
  | None => let* p := build_pretty source sp in
            Err (mkerror (e_kind e) (e_name e) (e_reason e) (Some p))
  end.

(** src/error.rs 109-116 [Error::filter] *)
Definition mk_filter_error (reason : str) : error := mkerror KFilter None (Some reason) None.

(** src/error.rs 117-124 [Error::format]; the argument is the message of the
    [fmt::Error] (fmt.rs 95). *)
Definition err_format {A} (msg : option str) (source : str) (sp : span) : res A :=
  let* p := build_pretty source sp in
  Err (mkerror KFormat None msg (Some p)).

(** src/error.rs 127-136 [From<io::Error>] *)
Definition mk_io_error (code : N) : error := mkerror (KIo code) None None None.

(** src/error.rs 138-147 [From<fmt::Error>] *)
Definition mk_fmt_error : error := mkerror KFormat None None None.

(** src/error.rs 149-163 [serde::ser::Error::custom] *)
Definition mk_ser_error (msg : str) : error := mkerror KSerialize None (Some msg) None.

(** src/error.rs 165-172 [std::error::Error::source]: the io error, if it is one *)
Definition error_source (e : error) : option N :=
  match e_kind e with KIo code => Some code | _ => None end.

(** src/error.rs 191-201 *)
Definition kind_msg (k : ekind) : str :=
  match k with
  | KSyntax => s2b "invalid syntax"
  | KRender => s2b "render error"
  | KFilter => s2b "filter error"
  | KFormat => s2b "format error"
  | KSerialize => s2b "serialize error"
  | KIo _ => s2b "io error"
  end.

(** src/error.rs 190-210 [Display], not alternate ("{}") *)
Definition display_error (e : error) : str :=
  match e_reason e with
  | Some r => kind_msg (e_kind e) ++ s2b ": " ++ r
  | None => kind_msg (e_kind e)
  end.

Definition spaces (n : nat) : str := repeat x20 n.
Definition nl : str := [x0a].

(** src/error.rs 248-275 [fmt_with_reason] *)
Definition fmt_with_reason (p : pretty) (name : option str) (reason : str) : str :=
  let num := show_nat (p_ln p + 1) in
  let col := show_nat (p_col p + 1) in
  let pad := spaces (display_width num) in
  let underline := spaces (p_col p) ++ repeat x5e (p_width p) in
  let extra := repeat x2d (3 - p_width p) in
  let name := match name with Some n => n | None => s2b "<anonymous>" end in
  nl ++ nl ++ s2b " " ++ pad ++ s2b "--> " ++ name ++ s2b ":" ++ num ++ s2b ":" ++ col
  ++ nl ++ s2b " " ++ pad ++ s2b " |"
  ++ nl ++ s2b " " ++ num ++ s2b " | " ++ p_text p
  ++ nl ++ s2b " " ++ pad ++ s2b " | " ++ underline ++ extra
  ++ nl ++ s2b " " ++ pad ++ s2b " |"
  ++ nl ++ s2b " " ++ pad ++ s2b " = reason: " ++ reason ++ nl.

(** src/error.rs 190-210 [Display], alternate ("{:#}") *)
Definition display_error_alt (e : error) : str :=
  match e_reason e, e_pretty e with
  | Some r, Some p => kind_msg (e_kind e) ++ fmt_with_reason p (e_name e) r
  | Some r, None => kind_msg (e_kind e) ++ s2b ": " ++ r
  | None, _ => kind_msg (e_kind e)
  end.

End WithExt.
