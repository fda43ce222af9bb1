(** src/fmt.rs, and the interaction trees used to model everything that writes.

    A computation that writes to the output is a finite tree: it ends with a
    result or performs one [write_str] and continues in one of two ways,
    depending on whether the write succeeded.  The tree does not know the sink;
    [run] executes it against one (a [String] or an arbitrary, possibly failing
    [io::Write]). *)
From Verif Require Import Base Utf8 Ext Errors Value.
From Coq Require Import Floats.SpecFloat.

Inductive rt (A : Type) : Type :=
| RRet (r : res A)
| RWrite (s : str) (ok err : rt A).
Arguments RRet {A} r.
Arguments RWrite {A} s ok err.

Fixpoint rbind {A B} (x : rt A) (f : A -> rt B) : rt B :=
  match x with
  | RRet (Ok a) => f a
  | RRet (Err e) => RRet (Err e)
  | RRet Panic => RRet Panic
  | RRet OutOfFuel => RRet OutOfFuel
  | RWrite s ok err => RWrite s (rbind ok f) (rbind err f)
  end.

Notation "'let%' p ':=' x 'in' y" := (rbind x (fun p => y))
  (at level 200, p pattern, x at level 100, y at level 200, only parsing).

(** [Result::map_err] *)
Fixpoint rmap_err {A} (f : error -> error) (x : rt A) : rt A :=
  match x with
  | RRet (Err e) => RRet (Err (f e))
  | RRet r => RRet r
  | RWrite s ok err => RWrite s (rmap_err f ok) (rmap_err f err)
  end.

(** What a user formatter may do: write any number of times, looking at the
    success of each write, and end with [Ok(())] or with [Err(fmt::Error(msg))]
    (fmt.rs 83-95).  Formatters that panic or never return are not modelled. *)
Inductive fmt_prog :=
| FDone
| FFail (msg : option str)
| FWrite (s : str) (ok err : fmt_prog).

(** fmt.rs 80 [FormatFn] *)
Definition formatter := value -> fmt_prog.

(** [write!(f, ..)?]: write the chunks in order; a failed write becomes
    [fmt::Error(None)] (fmt.rs 165-169) *)
Fixpoint write_chunks (chunks : list str) : fmt_prog :=
  match chunks with
  | [] => FDone
  | c :: cs => FWrite c (write_chunks cs) (FFail None)
  end.

(** render/value.rs 20-30 [Value::human] *)
Definition human (v : value) : str :=
  match v with
  | VNone => s2b "none"
  | VBool _ => s2b "bool"
  | VInt _ => s2b "integer"
  | VFloat _ => s2b "float"
  | VStr _ => s2b "string"
  | VList _ => s2b "list"
  | VMap _ => s2b "map"
  end.

(** [Display] of the scalar types: the [write_str] calls made by core::fmt with
    no formatting options (a negative integer writes its sign separately). *)
Definition display_chunks `{X : Ext} (v : value) : list str :=
  match v with
  | VBool true => [s2b "true"]
  | VBool false => [s2b "false"]
  | VInt z => match z with Zneg p => [s2b "-"; show_N (Npos p)] | _ => [show_Z z] end
  | VFloat f => f64_display f
  | VStr s => [s]
  | _ => []
  end.

(** fmt.rs 214-229 [fmt::default] *)
Definition fmt_default `{X : Ext} : formatter := fun v =>
  match v with
  | VNone => FDone
  | VBool _ | VInt _ | VFloat _ | VStr _ => write_chunks (display_chunks v)
  | VList _ | VMap _ => FFail (Some (s2b "expression evaluated to unformattable type " ++ human v))
  end.

(** Run a formatter as part of rendering: its error is turned into an
    [Error::format] by the continuation [on_err] (render/core.rs 129, 160, 170). *)
Fixpoint run_fmt (p : fmt_prog) (on_err : option str -> res unit) : rt unit :=
  match p with
  | FDone => RRet (Ok tt)
  | FFail m => RRet (on_err m)
  | FWrite s ok err => RWrite s (run_fmt ok on_err) (run_fmt err on_err)
  end.

(** ** Sinks *)

(** An [io::Write]: an arbitrary state and an arbitrary [write_all], which
    answers [None] (success) or [Some code] (an io error), having changed the
    state in either case. *)
Record sink := mksink {
  sk_state : Type;
  sk_write : sk_state -> str -> sk_state * option N
}.

(** fmt.rs 97-100, 171-202 [Writer]: the writer and the last io error.  Execution
    of a tree against a writer. *)
Fixpoint run {A} (k : sink) (w : sk_state k) (err : option N) (t : rt A)
  : sk_state k * option N * res A :=
  match t with
  | RRet r => (w, err, r)
  | RWrite s ok er =>
    match sk_write k w s with
    | (w', None) => run k w' err ok
    | (w', Some e) => run k w' (Some e) er
    end
  end.

(** fmt.rs 103-105 [Formatter::with_string]: appending to a [String] never fails *)
Fixpoint run_string {A} (buf : str) (t : rt A) : str * res A :=
  match t with
  | RRet r => (buf, r)
  | RWrite s ok _ => run_string (buf ++ s) ok
  end.
