(** The meaning of templates, without their layout.

    Templates here are trees of names, literals and text: no positions, no source
    text.  The meaning is an interpreter of these trees.  It does not refer to the
    renderer, its stack or its instructions; it shares with the model only values,
    the trees of writes (Fmt.v) and the conversion of one value to one argument type
    (Filters.v, specified by C23). *)
From Verif Require Import Base Ext Errors Value Ast Fmt Stack LookupSpec Filters Render.

(** ** Templates *)
Inductive pkey := KName (name : str) | KIndex (i : N).
(** [.key] or [?.key] *)
Record pstep := mkpstep { ps_optional : bool; ps_key : pkey }.
Inductive patom :=
| PVar (first : str) (rest : list pstep)
| PLit (v : value).
(** [recv | name] and [recv | name: args] *)
Inductive pexpr :=
| PAtom (a : patom)
| PCall (recv : pexpr) (name : str) (args : option (list patom)).
Inductive pstmt :=
| PText (s : str)
| PShow (e : pexpr)
| PInclude (name : str) (w : option pexpr)
| PIf (negated : bool) (c : pexpr) (thn : list pstmt) (els : option (list pstmt))
| PFor (item : str) (e : pexpr) (body : list pstmt)
| PForEntries (key value : str) (e : pexpr) (body : list pstmt)
| PWith (e : pexpr) (name : str) (body : list pstmt).

(** ** Variables *)

(** What is in sight, innermost first. *)
Inductive binding :=
| BScope (c : cow)                                              (* the members of a value *)
| BName (name : str) (c : cow)                                  (* [with .. as name] *)
| BItem (item : str) (o : bool) (x : value) (i rem : nat)      (* a round of a loop over a list: [i] rounds before it, [rem] after *)
| BEntry (kn vn : str) (o : bool) (k : str) (x : value) (i rem : nat)   (* a round of a loop over a map *)
| BFunction (f : value_fn).
Definition env := list binding.

Inductive followed := Found (v : value) | Absent | Stuck (reason : str).
(** Following a path into a value. *)
Fixpoint follow (v : value) (path : list pstep) : followed :=
  match path with
  | [] => Found v
  | s :: path' =>
    match ps_key s, v with
    | KIndex i, VList l =>
      match nth_error l (N.to_nat i) with
      | Some x => follow x path'
      | None => if ps_optional s then Absent else Stuck (s2b "index out of bounds, the length is " ++ show_nat (length l))
      end
    | KName k, VMap m =>
      match map_get k m with
      | Some x => follow x path'
      | None => if ps_optional s then Absent else Stuck (s2b "not found in map")
      end
    | KIndex _, _ => Stuck (kind_word v ++ s2b " does not support integer-based access")
    | KName _, _ => Stuck (kind_word v ++ s2b " does not support key-based access")
    end
  end.

(** A value, borrowed from the variables or not; or the reason of an error. *)
Definition got := (cow + str)%type.
Definition got_of (o : bool) (f : followed) : got :=
  match f with Found v => inl (mk_cow o v) | Absent => inl (Borrowed VNone) | Stuck r => inr r end.

(** [loop] in a round. *)
Definition loop_map (i rem : nat) : value :=
  VMap [(s2b "first", VBool (i =? 0)); (s2b "index", VInt (Z.of_nat i)); (s2b "last", VBool (rem =? 0))].
Definition loop_path (i rem : nat) (rest : list pstep) : got :=
  match rest with
  | [] => inl (Owned (loop_map i rem))
  | s :: rest' =>
    match ps_key s with
    | KIndex _ => inr (s2b "cannot index into map with integer")
    | KName k =>
      match (match loop_map i rem with VMap m => map_get k m | _ => None end) with
      | Some v => match rest' with [] => inl (Owned v) | _ => inr (s2b "cannot index into " ++ kind_word v) end
      | None =>
        if ps_optional s then match rest' with [] => inl (Owned VNone) | _ => inr (s2b "cannot index into none") end
        else inr (s2b "not found in map")
      end
    end
  end.
(** In the code, a missing optional member of a loop variable continues the search
    outside of the loop (see C20). *)
Definition item_path (o : bool) (x : value) (rest : list pstep) : option got :=
  match follow x rest with Absent => None | f => Some (got_of o f) end.
Definition vstep (s : pstep) : vmember :=
  mkvmember (if ps_optional s then Optional else Direct) (match ps_key s with KName k => VAKey k | KIndex i => VAIndex i end).

(** What one binding says about a path; [None] if it does not have it. *)
Definition ask (b : binding) (first : str) (rest : list pstep) : option got :=
  match b with
  | BScope c =>
    match cow_val c with
    | VMap m => match map_get first m with Some x => Some (got_of (is_owned c) (follow x rest)) | None => None end
    | _ => None
    end
  | BName n c => if str_eqb first n then Some (got_of (is_owned c) (follow (cow_val c) rest)) else None
  | BItem n o x i rem =>
    if str_eqb first (s2b "loop") then Some (loop_path i rem rest)
    else if str_eqb first n then item_path o x rest else None
  | BEntry kn vn o k x i rem =>
    if str_eqb first (s2b "loop") then Some (loop_path i rem rest)
    else if str_eqb first kn then Some (match rest with [] => inl (Owned (VStr k)) | _ => inr (s2b "cannot index into string") end)
    else if str_eqb first vn then item_path o x rest else None
  | BFunction f =>
    Some (match f (mkvmember Direct (VAKey first) :: map vstep rest) with inl v => inl (Owned v) | inr r => inr r end)
  end.
Fixpoint m_find (en : env) (first : str) (rest : list pstep) : got :=
  match en with
  | [] => inr (s2b "not found in this scope")
  | b :: en' => match ask b first rest with Some g => g | None => m_find en' first rest end
  end.

(** ** Expressions *)
Section Meaning.
Context `{X : Ext}.

(** What a template is rendered with: the functions of the engine, its default
    formatter, the limit for includes, and the templates: [w_find asked name] is the
    template called [name], or why there is none, and the names asked for, which
    were [asked] before. *)
Record world := mkworld {
  w_function : str -> option engine_fn;
  w_default : formatter;
  w_limit : N;
  w_find : list str -> str -> (list pstmt * list str) + str }.
Variable w : world.

(** The kind and the reason of an error. *)
Definition trouble := (ekind * str)%type.

Definition bad_value (what : str) (e : arg_error) : str :=
  match e with
  | AeType exp got => s2b "filter expected " ++ exp ++ s2b " " ++ what ++ s2b ", found " ++ got
  | AeReference got => s2b "filter expected reference argument but this " ++ got ++ s2b " can only be passed as owned"
  | AeTryFromInt want v => s2b "filter expected " ++ want ++ s2b " " ++ what ++ s2b ", but `" ++ show_Z v ++ s2b "` is out of range"
  end.
Definition m_arg (en : env) (t : arg_ty) (a : patom) : arg_val + str :=
  match (match a with PLit v => inl (Borrowed v) | PVar first rest => m_find en first rest end) with
  | inr r => inr r
  | inl c =>
    match (if is_owned c then from_value t (cow_val c) else from_value_ref t (cow_val c)) with
    | inl av => inl av
    | inr e => inr (bad_value (s2b "argument") e)
    end
  end.
Fixpoint m_args (en : env) (tys : list arg_ty) (l : list patom) : list arg_val + str :=
  match tys, l with
  | t :: tys', a :: l' =>
    match m_arg en t a with
    | inr r => inr r
    | inl av => match m_args en tys' l' with inl avs => inl (av :: avs) | inr r => inr r end
    end
  | _, _ => inl []
  end.
(** A call of the filter [f] on [v]. *)
Definition m_call (en : env) (f : filter) (v : value) (l : list patom) : value + trouble :=
  if length l =? length (fl_args f) then
    match from_value_ref (fl_recv f) v with
    | inr e => inr (KRender, bad_value (s2b "value") e)
    | inl av =>
      match m_args en (fl_args f) l with
      | inr r => inr (KRender, r)
      | inl avs => match fl_run f av avs with inl v => inl v | inr r => inr (KFilter, r) end
      end
    end
  else inr (KRender, s2b "filter expected " ++ show_nat (length (fl_args f)) ++ s2b " arguments").
Definition m_apply (en : env) (name : str) (v : value) (l : list patom) : value + trouble :=
  match w_function w name with
  | Some (EFilter f) => m_call en f v l
  | Some (EFormatter _) => inr (KRender, s2b "expected filter, found formatter")
  | None => inr (KRender, s2b "unknown filter")
  end.
Fixpoint m_expr (en : env) (e : pexpr) : cow + trouble :=
  match e with
  | PAtom (PLit v) => inl (Owned v)
  | PAtom (PVar first rest) => match m_find en first rest with inl c => inl c | inr r => inr (KRender, r) end
  | PCall recv name args =>
    match m_expr en recv with
    | inr t => inr t
    | inl c =>
      match m_apply en name (cow_val c) (match args with Some l => l | None => [] end) with
      | inl v => inl (Owned v)
      | inr t => inr t
      end
    end
  end.
(** What [{{ e }}] does: it formats a value.  The last function of a pipeline, if
    it has no arguments, may be a formatter. *)
Definition m_show (en : env) (e : pexpr) : (formatter * value) + trouble :=
  match e with
  | PCall recv name None =>
    match m_expr en recv with
    | inr t => inr t
    | inl c =>
      match w_function w name with
      | Some (EFormatter f) => inl (f, cow_val c)
      | Some (EFilter f) => match m_call en f (cow_val c) [] with inl v => inl (w_default w, v) | inr t => inr t end
      | None => inr (KRender, s2b "unknown filter or formatter")
      end
    end
  | _ => match m_expr en e with inl c => inl (w_default w, cow_val c) | inr t => inr t end
  end.

(** ** Statements *)

(** The rounds of a loop. *)
Fixpoint item_rounds (item : str) (o : bool) (i : nat) (l : list value) : list binding :=
  match l with
  | [] => []
  | x :: l' => BItem item o x i (length l') :: item_rounds item o (S i) l'
  end.
Fixpoint entry_rounds (kn vn : str) (o : bool) (i : nat) (l : list (str * value)) : list binding :=
  match l with
  | [] => []
  | (k, x) :: l' => BEntry kn vn o k x i (length l') :: entry_rounds kn vn o (S i) l'
  end.

(** Errors carry the name of the template. *)
Definition m_fail {A} (tname : option str) (t : trouble) : rt A := RRet (Err (mkerror (fst t) tname (Some (snd t)) None)).
Definition no_iteration (v : value) : str :=
  match v with
  | VList _ => s2b "cannot unpack list item into two variables"
  | VMap _ => s2b "cannot unpack map item into one variable"
  | _ => s2b "expected iterable, but expression evaluated to " ++ kind_word v
  end.

(** The meaning of a template in given variables; it yields the names asked for. *)
Definition meaning := list pstmt -> option str -> env -> list str -> rt (list str).
Fixpoint m_each (body : env -> list str -> rt (list str)) (en : env) (rounds : list binding) (asked : list str) : rt (list str) :=
  match rounds with
  | [] => RRet (Ok asked)
  | b :: rounds' => let% asked := body (b :: en) asked in m_each body en rounds' asked
  end.

Section Statements.
Variable inc : option meaning.   (* of included templates; [None]: too deep *)
Variable tname : option str.
Fixpoint m_stmt (s : pstmt) (en : env) (asked : list str) {struct s} : rt (list str) :=
  let m_scope := fix m_scope (l : list pstmt) (en : env) (asked : list str) {struct l} : rt (list str) :=
    match l with
    | [] => RRet (Ok asked)
    | s :: l' => let% asked := m_stmt s en asked in m_scope l' en asked
    end in
  match s with
  | PText s => RWrite s (RRet (Ok asked)) (RRet (Err (mkerror KFormat tname None None)))
  | PShow e =>
    match m_show en e with
    | inr t => m_fail tname t
    | inl (f, v) => let% _ := run_fmt (f v) (fun m => Err (mkerror KFormat tname m None)) in RRet (Ok asked)
    end
  | PInclude name arg =>
    let include en' :=
      match w_find w asked name with
      | inr r => m_fail tname (KRender, r)
      | inl (body, asked) =>
        match inc with
        | None => m_fail None (KRender, s2b "reached maximum include depth (" ++ show_N (w_limit w) ++ s2b ")")
        | Some meaning => meaning body (Some name) en' asked
        end
      end in
    match arg with
    | None => include en
    | Some e => match m_expr en e with inl c => include [BScope c] | inr t => m_fail tname t end
    end
  | PIf negated c thn els =>
    match m_expr en c with
    | inr t => m_fail tname t
    | inl v => if xorb negated (as_bool (cow_val v)) then m_scope thn en asked
               else match els with Some l => m_scope l en asked | None => RRet (Ok asked) end
    end
  | PFor item e body =>
    match m_expr en e with
    | inr t => m_fail tname t
    | inl c =>
      match cow_val c with
      | VList l => m_each (m_scope body) en (item_rounds item (is_owned c) 0 l) asked
      | v => m_fail tname (KRender, no_iteration v)
      end
    end
  | PForEntries kn vn e body =>
    match m_expr en e with
    | inr t => m_fail tname t
    | inl c =>
      match cow_val c with
      | VMap m => m_each (m_scope body) en (entry_rounds kn vn (is_owned c) 0 m) asked
      | v => m_fail tname (KRender, no_iteration v)
      end
    end
  | PWith e name body =>
    match m_expr en e with
    | inr t => m_fail tname t
    | inl c => m_scope body (BName name c :: en) asked
    end
  end.
Fixpoint m_scope (l : list pstmt) (en : env) (asked : list str) {struct l} : rt (list str) :=
  match l with
  | [] => RRet (Ok asked)
  | s :: l' => let% asked := m_stmt s en asked in m_scope l' en asked
  end.
End Statements.

(** At most [d] nested includes below this template. *)
Fixpoint m_template (d : nat) : meaning := fun body tname en asked =>
  m_scope (match d with 0 => None | S d' => Some (m_template d') end) tname body en asked.
Definition m_render (body : list pstmt) (tname : option str) (en : env) : rt unit :=
  let% _ := m_template (N.to_nat (w_limit w) - 1) body tname en [] in RRet (Ok tt).
End Meaning.

(** ** From syntax trees *)
Section Bare.
Variable source : str.
Definition word (sp : span) : str := sub source (sp_m sp) (sp_n sp).
Definition bare_step (m : member) : pstep :=
  mkpstep (match mb_op m with Optional => true | Direct => false end)
    (match mb_access m with AIndex i _ => KIndex i | AKey id => KName (word (id_span id)) end).
Definition bare_base (b : base_expr) : patom :=
  match b with
  | BVar (m :: ms) => PVar (word (access_span (mb_access m))) (map bare_step ms)
  | BVar [] => PVar [] []
  | BLit v _ => PLit v
  end.
Fixpoint bare_expr (e : expr) : pexpr :=
  match e with
  | EBase b => PAtom (bare_base b)
  | ECall name a recv _ => PCall (bare_expr recv) (word (id_span name)) (match a with Some a => Some (map bare_base (a_values a)) | None => None end)
  end.
Fixpoint bare_stmt (s : stmt) : pstmt :=
  match s with
  | SRaw sp => PText (word sp)
  | SInline e _ => PShow (bare_expr e)
  | SInclude name a => PInclude (as_name name) (match a with Some e => Some (bare_expr e) | None => None end)
  | SIf n c thn els => PIf n (bare_expr c) (map bare_stmt thn) (match els with Some l => Some (map bare_stmt l) | None => None end)
  | SFor (LVItem i) e body => PFor (word (id_span i)) (bare_expr e) (map bare_stmt body)
  | SFor (LVKeyValue k v _) e body => PForEntries (word (id_span k)) (word (id_span v)) (bare_expr e) (map bare_stmt body)
  | SWith e name body => PWith (bare_expr e) (word (id_span name)) (map bare_stmt body)
  end.
Definition bare (l : scope) : list pstmt := map bare_stmt l.
End Bare.

(** No [include "name"] (without [with]) inside a [with] block; [inside] says
    whether we are in one.  (There the code goes wrong, see C13 and C18.) *)
Fixpoint confined (inside : bool) (s : pstmt) : Prop :=
  let all := fix all (inside : bool) (l : list pstmt) : Prop :=
    match l with [] => True | s :: l' => confined inside s /\ all inside l' end in
  match s with
  | PText _ | PShow _ => True
  | PInclude _ None => inside = false
  | PInclude _ (Some _) => True
  | PIf _ _ thn els => all inside thn /\ match els with Some l => all inside l | None => True end
  | PFor _ _ b | PForEntries _ _ _ b => all inside b
  | PWith _ _ b => all true b
  end.
Fixpoint confined_all (inside : bool) (l : list pstmt) : Prop :=
  match l with [] => True | s :: l' => confined inside s /\ confined_all inside l' end.

(** Without the place of the error. *)
Definition unplaced (e : error) : error := mkerror (e_kind e) (e_name e) (e_reason e) None.
Definition without_place {A} (r : res A) : res A := match r with Err e => Err (unplaced e) | r => r end.
(** The variables a rendering starts with. *)
Definition start (g : globals) : env :=
  match g with
  | GOwned (Ok v) | GBorrowed v => [BScope (Borrowed v)]
  | GFn f => [BFunction f]
  | GOwned _ => []
  end.
