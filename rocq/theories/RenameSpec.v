(** Specification of C55: other names for variables, functions and templates. *)
From Verif Require Import Base Ext Errors Value Ast Fmt Stack Filters Render Engine Meaning ExtendSpec.

Section Renaming.
(** The new names of variables (of contexts and of blocks), filters and formatters,
    and templates. *)
Variables vars funs temps : str -> str.

(** ** In templates (the trees of Meaning.v) *)
Definition new_atom (a : patom) : patom :=
  match a with PVar first rest => PVar (vars first) rest | PLit v => PLit v end.
Fixpoint new_expr (e : pexpr) : pexpr :=
  match e with
  | PAtom a => PAtom (new_atom a)
  | PCall recv name args => PCall (new_expr recv) (funs name) (match args with Some l => Some (map new_atom l) | None => None end)
  end.
Fixpoint new_stmt (s : pstmt) : pstmt :=
  match s with
  | PText s => PText s
  | PShow e => PShow (new_expr e)
  | PInclude n a => PInclude (temps n) (match a with Some e => Some (new_expr e) | None => None end)
  | PIf neg c thn els => PIf neg (new_expr c) (map new_stmt thn) (match els with Some l => Some (map new_stmt l) | None => None end)
  | PFor i e b => PFor (vars i) (new_expr e) (map new_stmt b)
  | PForEntries k v e b => PForEntries (vars k) (vars v) (new_expr e) (map new_stmt b)
  | PWith e n b => PWith (new_expr e) (vars n) (map new_stmt b)
  end.

(** An [include .. with e] makes the members of a value variables, so that their names
    would have to change too. *)
Fixpoint no_include_with (s : pstmt) : Prop :=
  let all := fix all (l : list pstmt) : Prop := match l with [] => True | s :: l' => no_include_with s /\ all l' end in
  match s with
  | PText _ | PShow _ => True
  | PInclude _ a => a = None
  | PIf _ _ thn els => all thn /\ match els with Some l => all l | None => True end
  | PFor _ _ b | PForEntries _ _ _ b | PWith _ _ b => all b
  end.
(** Different variables remain different, and [loop] remains [loop]. *)
Definition good_names : Prop := (forall a b, vars a = vars b -> a = b) /\ vars (s2b "loop") = s2b "loop".

(** ** In contexts *)
Inductive new_context : globals -> globals -> Prop :=
| nc_map g1 g2 m1 m2 : given g1 (VMap m1) -> given g2 (VMap m2) -> (forall k, map_get (vars k) m2 = map_get k m1) -> new_context g1 g2
| nc_other g1 g2 v : (forall m, v <> VMap m) -> given g1 v -> given g2 v -> new_context g1 g2
| nc_fn f1 f2 : (forall k path, f2 (mkvmember Direct (VAKey (vars k)) :: path) = f1 (mkvmember Direct (VAKey k) :: path)) ->
    new_context (GFn f1) (GFn f2).

(** ** In what is observed: the name of the template that an error carries *)
Definition new_error (e : error) : error := mkerror (e_kind e) (option_map temps (e_name e)) (e_reason e) (e_pretty e).
Definition new_result {A} (r : res A) : res A := match r with Err e => Err (new_error e) | r => r end.

(** ** In renderers; [T] relates the templates *)
Record new_renderer (T : template -> template -> Prop) (inner1 inner2 : renderer_inner) : Prop := mknew_renderer {
  nr_functions : forall n, map_get (funs n) (en_functions (ri_engine inner2)) = map_get n (en_functions (ri_engine inner1));
  nr_formatter : en_default_formatter (ri_engine inner1) = en_default_formatter (ri_engine inner2);
  nr_limit : max_include_depth inner1 = max_include_depth inner2;
  nr_root : T (ri_template inner1) (ri_template inner2);
  nr_name : ri_template_name inner2 = option_map temps (ri_template_name inner1);
  nr_templates :
    match ri_template_fn inner1, ri_template_fn inner2 with
    | Some f1, Some f2 => forall asked n,
        match f1 asked n, f2 (map temps asked) (temps n) with inl t1, inl t2 => T t1 t2 | inr r1, inr r2 => r1 = r2 | _, _ => False end
    | None, None => forall n,
        match map_get n (en_templates (ri_engine inner1)), map_get (temps n) (en_templates (ri_engine inner2)) with
        | Some t1, Some t2 => T t1 t2 | None, None => True | _, _ => False end
    | _, _ => False
    end
}.
End Renaming.
