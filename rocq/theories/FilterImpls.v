(** src/filters/impls.rs, and the impls of [Filter], [FilterArgs] and [FilterReturn] in
    src/filters/mod.rs: which Rust functions are filters, and how they are called. *)
From Verif Require Import Base Utf8 Ext Errors Value Ast Fmt Stack Filters Serde.

(** The generic type parameters of the impls, and the variables of their [filter] methods *)
Inductive gvar := gV | gA | gB | gC | gD.
Inductive pvar := pv | pa | pb | pc | pd.
Definition pvar_eqb (x y : pvar) : bool :=
  match x, y with pv, pv | pa, pa | pb, pb | pc, pc | pd, pd => true | _, _ => false end.

(** The type of a parameter of a Rust function: owned, or one of the references [&str],
    [&[Value]], [&BTreeMap<String, Value>] and [&Value] *)
Inductive rty := ROwned (t : arg_ty) | RStr | RSlice | RMapRef | RValueRef.

(** filters/args.rs 32, 51, 73, 102, 126, 150, 176, 200, 226, 250, 276, 294: [type Output<'a>] of each [FilterArg] *)
Definition output (t : arg_ty) : rty :=
  match t with
  | TyStr => RStr
  | TyListRef => RSlice
  | TyMapRef => RMapRef
  | TyValueRef => RValueRef
  | _ => ROwned t
  end.

(** A type in the tuple of an impl, and one in the type of its function *)
Inductive mty := MGen (g : gvar) | MArg (t : arg_ty).
Inductive fty := FGen (g : gvar) | FTy (t : rty).

(** [impl<...> Filter<R, (HEAD)> for Func where Func: Fn(FN) -> R, g: FilterArg<Output = g'>...,
    (T): FilterArgs<Output = (O)> { fn filter(&self, (PAT): (PAT_TY)) -> R { self(CALL) } }] *)
Record impl := mkimpl {
  im_head : list mty;
  im_fn : list fty;
  im_where : list (gvar * gvar);
  im_output : list mty * list fty;
  im_pat : list pvar;
  im_pat_ty : list fty;
  im_call : list pvar
}.

(** filters/mod.rs 179-262 and filters/impls.rs 11-2457, every impl (transcribed by a script) *)
Definition impls : list impl := [
  (* filters/mod.rs 179-192 *)
  mkimpl [MGen gV]
    [FGen gV] [(gV, gV)]
    ([MGen gV], [FGen gV])
    [pv] [FGen gV] [pv];
  (* filters/mod.rs 194-208 *)
  mkimpl [MGen gV; MGen gA]
    [FGen gV; FGen gA] [(gV, gV); (gA, gA)]
    ([MGen gV; MGen gA], [FGen gV; FGen gA])
    [pv; pa] [FGen gV; FGen gA] [pv; pa];
  (* filters/mod.rs 210-225 *)
  mkimpl [MGen gV; MGen gA; MGen gB]
    [FGen gV; FGen gA; FGen gB] [(gV, gV); (gA, gA); (gB, gB)]
    ([MGen gV; MGen gA; MGen gB], [FGen gV; FGen gA; FGen gB])
    [pv; pa; pb] [FGen gV; FGen gA; FGen gB] [pv; pa; pb];
  (* filters/mod.rs 227-243 *)
  mkimpl [MGen gV; MGen gA; MGen gB; MGen gC]
    [FGen gV; FGen gA; FGen gB; FGen gC] [(gV, gV); (gA, gA); (gB, gB); (gC, gC)]
    ([MGen gV; MGen gA; MGen gB; MGen gC], [FGen gV; FGen gA; FGen gB; FGen gC])
    [pv; pa; pb; pc] [FGen gV; FGen gA; FGen gB; FGen gC] [pv; pa; pb; pc];
  (* filters/mod.rs 245-262 *)
  mkimpl [MGen gV; MGen gA; MGen gB; MGen gC; MGen gD]
    [FGen gV; FGen gA; FGen gB; FGen gC; FGen gD] [(gV, gV); (gA, gA); (gB, gB); (gC, gC); (gD, gD)]
    ([MGen gV; MGen gA; MGen gB; MGen gC; MGen gD], [FGen gV; FGen gA; FGen gB; FGen gC; FGen gD])
    [pv; pa; pb; pc; pd] [FGen gV; FGen gA; FGen gB; FGen gC; FGen gD] [pv; pa; pb; pc; pd];
  (* filters/impls.rs 12-22 *)
  mkimpl [MArg TyStr]
    [FTy RStr] []
    ([MArg TyStr], [FTy RStr])
    [pv] [FTy RStr] [pv];
  (* filters/impls.rs 25-35 *)
  mkimpl [MArg TyListRef]
    [FTy RSlice] []
    ([MArg TyListRef], [FTy RSlice])
    [pv] [FTy RSlice] [pv];
  (* filters/impls.rs 38-48 *)
  mkimpl [MArg TyMapRef]
    [FTy RMapRef] []
    ([MArg TyMapRef], [FTy RMapRef])
    [pv] [FTy RMapRef] [pv];
  (* filters/impls.rs 51-61 *)
  mkimpl [MArg TyValueRef]
    [FTy RValueRef] []
    ([MArg TyValueRef], [FTy RValueRef])
    [pv] [FTy RValueRef] [pv];
  (* filters/impls.rs 64-76 *)
  mkimpl [MGen gV; MArg TyStr]
    [FGen gV; FTy RStr] [(gV, gV)]
    ([MGen gV; MArg TyStr], [FGen gV; FTy RStr])
    [pv; pa] [FGen gV; FTy RStr] [pv; pa];
  (* filters/impls.rs 79-91 *)
  mkimpl [MArg TyStr; MGen gA]
    [FTy RStr; FGen gA] [(gA, gA)]
    ([MArg TyStr; MGen gA], [FTy RStr; FGen gA])
    [pv; pa] [FTy RStr; FGen gA] [pv; pa];
  (* filters/impls.rs 94-104 *)
  mkimpl [MArg TyStr; MArg TyStr]
    [FTy RStr; FTy RStr] []
    ([MArg TyStr; MArg TyStr], [FTy RStr; FTy RStr])
    [pv; pa] [FTy RStr; FTy RStr] [pv; pa];
  (* filters/impls.rs 107-119 *)
  mkimpl [MArg TyListRef; MGen gA]
    [FTy RSlice; FGen gA] [(gA, gA)]
    ([MArg TyListRef; MGen gA], [FTy RSlice; FGen gA])
    [pv; pa] [FTy RSlice; FGen gA] [pv; pa];
  (* filters/impls.rs 122-132 *)
  mkimpl [MArg TyListRef; MArg TyStr]
    [FTy RSlice; FTy RStr] []
    ([MArg TyListRef; MArg TyStr], [FTy RSlice; FTy RStr])
    [pv; pa] [FTy RSlice; FTy RStr] [pv; pa];
  (* filters/impls.rs 135-147 *)
  mkimpl [MArg TyMapRef; MGen gA]
    [FTy RMapRef; FGen gA] [(gA, gA)]
    ([MArg TyMapRef; MGen gA], [FTy RMapRef; FGen gA])
    [pv; pa] [FTy RMapRef; FGen gA] [pv; pa];
  (* filters/impls.rs 150-160 *)
  mkimpl [MArg TyMapRef; MArg TyStr]
    [FTy RMapRef; FTy RStr] []
    ([MArg TyMapRef; MArg TyStr], [FTy RMapRef; FTy RStr])
    [pv; pa] [FTy RMapRef; FTy RStr] [pv; pa];
  (* filters/impls.rs 163-175 *)
  mkimpl [MArg TyValueRef; MGen gA]
    [FTy RValueRef; FGen gA] [(gA, gA)]
    ([MArg TyValueRef; MGen gA], [FTy RValueRef; FGen gA])
    [pv; pa] [FTy RValueRef; FGen gA] [pv; pa];
  (* filters/impls.rs 178-188 *)
  mkimpl [MArg TyValueRef; MArg TyStr]
    [FTy RValueRef; FTy RStr] []
    ([MArg TyValueRef; MArg TyStr], [FTy RValueRef; FTy RStr])
    [pv; pa] [FTy RValueRef; FTy RStr] [pv; pa];
  (* filters/impls.rs 191-204 *)
  mkimpl [MGen gV; MGen gA; MArg TyStr]
    [FGen gV; FGen gA; FTy RStr] [(gV, gV); (gA, gA)]
    ([MGen gV; MGen gA; MArg TyStr], [FGen gV; FGen gA; FTy RStr])
    [pv; pa; pb] [FGen gV; FGen gA; FTy RStr] [pv; pa; pb];
  (* filters/impls.rs 207-220 *)
  mkimpl [MGen gV; MArg TyStr; MGen gB]
    [FGen gV; FTy RStr; FGen gB] [(gV, gV); (gB, gB)]
    ([MGen gV; MArg TyStr; MGen gB], [FGen gV; FTy RStr; FGen gB])
    [pv; pa; pb] [FGen gV; FTy RStr; FGen gB] [pv; pa; pb];
  (* filters/impls.rs 223-235 *)
  mkimpl [MGen gV; MArg TyStr; MArg TyStr]
    [FGen gV; FTy RStr; FTy RStr] [(gV, gV)]
    ([MGen gV; MArg TyStr; MArg TyStr], [FGen gV; FTy RStr; FTy RStr])
    [pv; pa; pb] [FGen gV; FTy RStr; FTy RStr] [pv; pa; pb];
  (* filters/impls.rs 238-251 *)
  mkimpl [MArg TyStr; MGen gA; MGen gB]
    [FTy RStr; FGen gA; FGen gB] [(gA, gA); (gB, gB)]
    ([MArg TyStr; MGen gA; MGen gB], [FTy RStr; FGen gA; FGen gB])
    [pv; pa; pb] [FTy RStr; FGen gA; FGen gB] [pv; pa; pb];
  (* filters/impls.rs 254-266 *)
  mkimpl [MArg TyStr; MGen gA; MArg TyStr]
    [FTy RStr; FGen gA; FTy RStr] [(gA, gA)]
    ([MArg TyStr; MGen gA; MArg TyStr], [FTy RStr; FGen gA; FTy RStr])
    [pv; pa; pb] [FTy RStr; FGen gA; FTy RStr] [pv; pa; pb];
  (* filters/impls.rs 269-281 *)
  mkimpl [MArg TyStr; MArg TyStr; MGen gB]
    [FTy RStr; FTy RStr; FGen gB] [(gB, gB)]
    ([MArg TyStr; MArg TyStr; MGen gB], [FTy RStr; FTy RStr; FGen gB])
    [pv; pa; pb] [FTy RStr; FTy RStr; FGen gB] [pv; pa; pb];
  (* filters/impls.rs 284-294 *)
  mkimpl [MArg TyStr; MArg TyStr; MArg TyStr]
    [FTy RStr; FTy RStr; FTy RStr] []
    ([MArg TyStr; MArg TyStr; MArg TyStr], [FTy RStr; FTy RStr; FTy RStr])
    [pv; pa; pb] [FTy RStr; FTy RStr; FTy RStr] [pv; pa; pb];
  (* filters/impls.rs 297-310 *)
  mkimpl [MArg TyListRef; MGen gA; MGen gB]
    [FTy RSlice; FGen gA; FGen gB] [(gA, gA); (gB, gB)]
    ([MArg TyListRef; MGen gA; MGen gB], [FTy RSlice; FGen gA; FGen gB])
    [pv; pa; pb] [FTy RSlice; FGen gA; FGen gB] [pv; pa; pb];
  (* filters/impls.rs 313-325 *)
  mkimpl [MArg TyListRef; MGen gA; MArg TyStr]
    [FTy RSlice; FGen gA; FTy RStr] [(gA, gA)]
    ([MArg TyListRef; MGen gA; MArg TyStr], [FTy RSlice; FGen gA; FTy RStr])
    [pv; pa; pb] [FTy RSlice; FGen gA; FTy RStr] [pv; pa; pb];
  (* filters/impls.rs 328-340 *)
  mkimpl [MArg TyListRef; MArg TyStr; MGen gB]
    [FTy RSlice; FTy RStr; FGen gB] [(gB, gB)]
    ([MArg TyListRef; MArg TyStr; MGen gB], [FTy RSlice; FTy RStr; FGen gB])
    [pv; pa; pb] [FTy RSlice; FTy RStr; FGen gB] [pv; pa; pb];
  (* filters/impls.rs 343-353 *)
  mkimpl [MArg TyListRef; MArg TyStr; MArg TyStr]
    [FTy RSlice; FTy RStr; FTy RStr] []
    ([MArg TyListRef; MArg TyStr; MArg TyStr], [FTy RSlice; FTy RStr; FTy RStr])
    [pv; pa; pb] [FTy RSlice; FTy RStr; FTy RStr] [pv; pa; pb];
  (* filters/impls.rs 356-369 *)
  mkimpl [MArg TyMapRef; MGen gA; MGen gB]
    [FTy RMapRef; FGen gA; FGen gB] [(gA, gA); (gB, gB)]
    ([MArg TyMapRef; MGen gA; MGen gB], [FTy RMapRef; FGen gA; FGen gB])
    [pv; pa; pb] [FTy RMapRef; FGen gA; FGen gB] [pv; pa; pb];
  (* filters/impls.rs 372-384 *)
  mkimpl [MArg TyMapRef; MGen gA; MArg TyStr]
    [FTy RMapRef; FGen gA; FTy RStr] [(gA, gA)]
    ([MArg TyMapRef; MGen gA; MArg TyStr], [FTy RMapRef; FGen gA; FTy RStr])
    [pv; pa; pb] [FTy RMapRef; FGen gA; FTy RStr] [pv; pa; pb];
  (* filters/impls.rs 387-399 *)
  mkimpl [MArg TyMapRef; MArg TyStr; MGen gB]
    [FTy RMapRef; FTy RStr; FGen gB] [(gB, gB)]
    ([MArg TyMapRef; MArg TyStr; MGen gB], [FTy RMapRef; FTy RStr; FGen gB])
    [pv; pa; pb] [FTy RMapRef; FTy RStr; FGen gB] [pv; pa; pb];
  (* filters/impls.rs 402-413 *)
  mkimpl [MArg TyMapRef; MArg TyStr; MArg TyStr]
    [FTy RMapRef; FTy RStr; FTy RStr] []
    ([MArg TyMapRef; MArg TyStr; MArg TyStr], [FTy RMapRef; FTy RStr; FTy RStr])
    [pv; pa; pb] [FTy RMapRef; FTy RStr; FTy RStr] [pv; pa; pb];
  (* filters/impls.rs 416-429 *)
  mkimpl [MArg TyValueRef; MGen gA; MGen gB]
    [FTy RValueRef; FGen gA; FGen gB] [(gA, gA); (gB, gB)]
    ([MArg TyValueRef; MGen gA; MGen gB], [FTy RValueRef; FGen gA; FGen gB])
    [pv; pa; pb] [FTy RValueRef; FGen gA; FGen gB] [pv; pa; pb];
  (* filters/impls.rs 432-444 *)
  mkimpl [MArg TyValueRef; MGen gA; MArg TyStr]
    [FTy RValueRef; FGen gA; FTy RStr] [(gA, gA)]
    ([MArg TyValueRef; MGen gA; MArg TyStr], [FTy RValueRef; FGen gA; FTy RStr])
    [pv; pa; pb] [FTy RValueRef; FGen gA; FTy RStr] [pv; pa; pb];
  (* filters/impls.rs 447-459 *)
  mkimpl [MArg TyValueRef; MArg TyStr; MGen gB]
    [FTy RValueRef; FTy RStr; FGen gB] [(gB, gB)]
    ([MArg TyValueRef; MArg TyStr; MGen gB], [FTy RValueRef; FTy RStr; FGen gB])
    [pv; pa; pb] [FTy RValueRef; FTy RStr; FGen gB] [pv; pa; pb];
  (* filters/impls.rs 462-472 *)
  mkimpl [MArg TyValueRef; MArg TyStr; MArg TyStr]
    [FTy RValueRef; FTy RStr; FTy RStr] []
    ([MArg TyValueRef; MArg TyStr; MArg TyStr], [FTy RValueRef; FTy RStr; FTy RStr])
    [pv; pa; pb] [FTy RValueRef; FTy RStr; FTy RStr] [pv; pa; pb];
  (* filters/impls.rs 475-489 *)
  mkimpl [MGen gV; MGen gA; MGen gB; MArg TyStr]
    [FGen gV; FGen gA; FGen gB; FTy RStr] [(gV, gV); (gA, gA); (gB, gB)]
    ([MGen gV; MGen gA; MGen gB; MArg TyStr], [FGen gV; FGen gA; FGen gB; FTy RStr])
    [pv; pa; pb; pc] [FGen gV; FGen gA; FGen gB; FTy RStr] [pv; pa; pb; pc];
  (* filters/impls.rs 492-506 *)
  mkimpl [MGen gV; MGen gA; MArg TyStr; MGen gC]
    [FGen gV; FGen gA; FTy RStr; FGen gC] [(gV, gV); (gA, gA); (gC, gC)]
    ([MGen gV; MGen gA; MArg TyStr; MGen gC], [FGen gV; FGen gA; FTy RStr; FGen gC])
    [pv; pa; pb; pc] [FGen gV; FGen gA; FTy RStr; FGen gC] [pv; pa; pb; pc];
  (* filters/impls.rs 509-522 *)
  mkimpl [MGen gV; MGen gA; MArg TyStr; MArg TyStr]
    [FGen gV; FGen gA; FTy RStr; FTy RStr] [(gV, gV); (gA, gA)]
    ([MGen gV; MGen gA; MArg TyStr; MArg TyStr], [FGen gV; FGen gA; FTy RStr; FTy RStr])
    [pv; pa; pb; pc] [FGen gV; FGen gA; FTy RStr; FTy RStr] [pv; pa; pb; pc];
  (* filters/impls.rs 525-539 *)
  mkimpl [MGen gV; MArg TyStr; MGen gB; MGen gC]
    [FGen gV; FTy RStr; FGen gB; FGen gC] [(gV, gV); (gB, gB); (gC, gC)]
    ([MGen gV; MArg TyStr; MGen gB; MGen gC], [FGen gV; FTy RStr; FGen gB; FGen gC])
    [pv; pa; pb; pc] [FGen gV; FTy RStr; FGen gB; FGen gC] [pv; pa; pb; pc];
  (* filters/impls.rs 542-555 *)
  mkimpl [MGen gV; MArg TyStr; MGen gB; MArg TyStr]
    [FGen gV; FTy RStr; FGen gB; FTy RStr] [(gV, gV); (gB, gB)]
    ([MGen gV; MArg TyStr; MGen gB; MArg TyStr], [FGen gV; FTy RStr; FGen gB; FTy RStr])
    [pv; pa; pb; pc] [FGen gV; FTy RStr; FGen gB; FTy RStr] [pv; pa; pb; pc];
  (* filters/impls.rs 558-571 *)
  mkimpl [MGen gV; MArg TyStr; MArg TyStr; MGen gC]
    [FGen gV; FTy RStr; FTy RStr; FGen gC] [(gV, gV); (gC, gC)]
    ([MGen gV; MArg TyStr; MArg TyStr; MGen gC], [FGen gV; FTy RStr; FTy RStr; FGen gC])
    [pv; pa; pb; pc] [FGen gV; FTy RStr; FTy RStr; FGen gC] [pv; pa; pb; pc];
  (* filters/impls.rs 574-586 *)
  mkimpl [MGen gV; MArg TyStr; MArg TyStr; MArg TyStr]
    [FGen gV; FTy RStr; FTy RStr; FTy RStr] [(gV, gV)]
    ([MGen gV; MArg TyStr; MArg TyStr; MArg TyStr], [FGen gV; FTy RStr; FTy RStr; FTy RStr])
    [pv; pa; pb; pc] [FGen gV; FTy RStr; FTy RStr; FTy RStr] [pv; pa; pb; pc];
  (* filters/impls.rs 589-603 *)
  mkimpl [MArg TyStr; MGen gA; MGen gB; MGen gC]
    [FTy RStr; FGen gA; FGen gB; FGen gC] [(gA, gA); (gB, gB); (gC, gC)]
    ([MArg TyStr; MGen gA; MGen gB; MGen gC], [FTy RStr; FGen gA; FGen gB; FGen gC])
    [pv; pa; pb; pc] [FTy RStr; FGen gA; FGen gB; FGen gC] [pv; pa; pb; pc];
  (* filters/impls.rs 606-619 *)
  mkimpl [MArg TyStr; MGen gA; MGen gB; MArg TyStr]
    [FTy RStr; FGen gA; FGen gB; FTy RStr] [(gA, gA); (gB, gB)]
    ([MArg TyStr; MGen gA; MGen gB; MArg TyStr], [FTy RStr; FGen gA; FGen gB; FTy RStr])
    [pv; pa; pb; pc] [FTy RStr; FGen gA; FGen gB; FTy RStr] [pv; pa; pb; pc];
  (* filters/impls.rs 622-635 *)
  mkimpl [MArg TyStr; MGen gA; MArg TyStr; MGen gC]
    [FTy RStr; FGen gA; FTy RStr; FGen gC] [(gA, gA); (gC, gC)]
    ([MArg TyStr; MGen gA; MArg TyStr; MGen gC], [FTy RStr; FGen gA; FTy RStr; FGen gC])
    [pv; pa; pb; pc] [FTy RStr; FGen gA; FTy RStr; FGen gC] [pv; pa; pb; pc];
  (* filters/impls.rs 638-650 *)
  mkimpl [MArg TyStr; MGen gA; MArg TyStr; MArg TyStr]
    [FTy RStr; FGen gA; FTy RStr; FTy RStr] [(gA, gA)]
    ([MArg TyStr; MGen gA; MArg TyStr; MArg TyStr], [FTy RStr; FGen gA; FTy RStr; FTy RStr])
    [pv; pa; pb; pc] [FTy RStr; FGen gA; FTy RStr; FTy RStr] [pv; pa; pb; pc];
  (* filters/impls.rs 653-666 *)
  mkimpl [MArg TyStr; MArg TyStr; MGen gB; MGen gC]
    [FTy RStr; FTy RStr; FGen gB; FGen gC] [(gB, gB); (gC, gC)]
    ([MArg TyStr; MArg TyStr; MGen gB; MGen gC], [FTy RStr; FTy RStr; FGen gB; FGen gC])
    [pv; pa; pb; pc] [FTy RStr; FTy RStr; FGen gB; FGen gC] [pv; pa; pb; pc];
  (* filters/impls.rs 669-681 *)
  mkimpl [MArg TyStr; MArg TyStr; MGen gB; MArg TyStr]
    [FTy RStr; FTy RStr; FGen gB; FTy RStr] [(gB, gB)]
    ([MArg TyStr; MArg TyStr; MGen gB; MArg TyStr], [FTy RStr; FTy RStr; FGen gB; FTy RStr])
    [pv; pa; pb; pc] [FTy RStr; FTy RStr; FGen gB; FTy RStr] [pv; pa; pb; pc];
  (* filters/impls.rs 684-696 *)
  mkimpl [MArg TyStr; MArg TyStr; MArg TyStr; MGen gC]
    [FTy RStr; FTy RStr; FTy RStr; FGen gC] [(gC, gC)]
    ([MArg TyStr; MArg TyStr; MArg TyStr; MGen gC], [FTy RStr; FTy RStr; FTy RStr; FGen gC])
    [pv; pa; pb; pc] [FTy RStr; FTy RStr; FTy RStr; FGen gC] [pv; pa; pb; pc];
  (* filters/impls.rs 699-709 *)
  mkimpl [MArg TyStr; MArg TyStr; MArg TyStr; MArg TyStr]
    [FTy RStr; FTy RStr; FTy RStr; FTy RStr] []
    ([MArg TyStr; MArg TyStr; MArg TyStr; MArg TyStr], [FTy RStr; FTy RStr; FTy RStr; FTy RStr])
    [pv; pa; pb; pc] [FTy RStr; FTy RStr; FTy RStr; FTy RStr] [pv; pa; pb; pc];
  (* filters/impls.rs 712-726 *)
  mkimpl [MArg TyListRef; MGen gA; MGen gB; MGen gC]
    [FTy RSlice; FGen gA; FGen gB; FGen gC] [(gA, gA); (gB, gB); (gC, gC)]
    ([MArg TyListRef; MGen gA; MGen gB; MGen gC], [FTy RSlice; FGen gA; FGen gB; FGen gC])
    [pv; pa; pb; pc] [FTy RSlice; FGen gA; FGen gB; FGen gC] [pv; pa; pb; pc];
  (* filters/impls.rs 729-742 *)
  mkimpl [MArg TyListRef; MGen gA; MGen gB; MArg TyStr]
    [FTy RSlice; FGen gA; FGen gB; FTy RStr] [(gA, gA); (gB, gB)]
    ([MArg TyListRef; MGen gA; MGen gB; MArg TyStr], [FTy RSlice; FGen gA; FGen gB; FTy RStr])
    [pv; pa; pb; pc] [FTy RSlice; FGen gA; FGen gB; FTy RStr] [pv; pa; pb; pc];
  (* filters/impls.rs 745-758 *)
  mkimpl [MArg TyListRef; MGen gA; MArg TyStr; MGen gC]
    [FTy RSlice; FGen gA; FTy RStr; FGen gC] [(gA, gA); (gC, gC)]
    ([MArg TyListRef; MGen gA; MArg TyStr; MGen gC], [FTy RSlice; FGen gA; FTy RStr; FGen gC])
    [pv; pa; pb; pc] [FTy RSlice; FGen gA; FTy RStr; FGen gC] [pv; pa; pb; pc];
  (* filters/impls.rs 761-773 *)
  mkimpl [MArg TyListRef; MGen gA; MArg TyStr; MArg TyStr]
    [FTy RSlice; FGen gA; FTy RStr; FTy RStr] [(gA, gA)]
    ([MArg TyListRef; MGen gA; MArg TyStr; MArg TyStr], [FTy RSlice; FGen gA; FTy RStr; FTy RStr])
    [pv; pa; pb; pc] [FTy RSlice; FGen gA; FTy RStr; FTy RStr] [pv; pa; pb; pc];
  (* filters/impls.rs 776-789 *)
  mkimpl [MArg TyListRef; MArg TyStr; MGen gB; MGen gC]
    [FTy RSlice; FTy RStr; FGen gB; FGen gC] [(gB, gB); (gC, gC)]
    ([MArg TyListRef; MArg TyStr; MGen gB; MGen gC], [FTy RSlice; FTy RStr; FGen gB; FGen gC])
    [pv; pa; pb; pc] [FTy RSlice; FTy RStr; FGen gB; FGen gC] [pv; pa; pb; pc];
  (* filters/impls.rs 792-804 *)
  mkimpl [MArg TyListRef; MArg TyStr; MGen gB; MArg TyStr]
    [FTy RSlice; FTy RStr; FGen gB; FTy RStr] [(gB, gB)]
    ([MArg TyListRef; MArg TyStr; MGen gB; MArg TyStr], [FTy RSlice; FTy RStr; FGen gB; FTy RStr])
    [pv; pa; pb; pc] [FTy RSlice; FTy RStr; FGen gB; FTy RStr] [pv; pa; pb; pc];
  (* filters/impls.rs 807-819 *)
  mkimpl [MArg TyListRef; MArg TyStr; MArg TyStr; MGen gC]
    [FTy RSlice; FTy RStr; FTy RStr; FGen gC] [(gC, gC)]
    ([MArg TyListRef; MArg TyStr; MArg TyStr; MGen gC], [FTy RSlice; FTy RStr; FTy RStr; FGen gC])
    [pv; pa; pb; pc] [FTy RSlice; FTy RStr; FTy RStr; FGen gC] [pv; pa; pb; pc];
  (* filters/impls.rs 822-833 *)
  mkimpl [MArg TyListRef; MArg TyStr; MArg TyStr; MArg TyStr]
    [FTy RSlice; FTy RStr; FTy RStr; FTy RStr] []
    ([MArg TyListRef; MArg TyStr; MArg TyStr; MArg TyStr], [FTy RSlice; FTy RStr; FTy RStr; FTy RStr])
    [pv; pa; pb; pc] [FTy RSlice; FTy RStr; FTy RStr; FTy RStr] [pv; pa; pb; pc];
  (* filters/impls.rs 836-850 *)
  mkimpl [MArg TyMapRef; MGen gA; MGen gB; MGen gC]
    [FTy RMapRef; FGen gA; FGen gB; FGen gC] [(gA, gA); (gB, gB); (gC, gC)]
    ([MArg TyMapRef; MGen gA; MGen gB; MGen gC], [FTy RMapRef; FGen gA; FGen gB; FGen gC])
    [pv; pa; pb; pc] [FTy RMapRef; FGen gA; FGen gB; FGen gC] [pv; pa; pb; pc];
  (* filters/impls.rs 853-867 *)
  mkimpl [MArg TyMapRef; MGen gA; MGen gB; MArg TyStr]
    [FTy RMapRef; FGen gA; FGen gB; FTy RStr] [(gA, gA); (gB, gB)]
    ([MArg TyMapRef; MGen gA; MGen gB; MArg TyStr], [FTy RMapRef; FGen gA; FGen gB; FTy RStr])
    [pv; pa; pb; pc] [FTy RMapRef; FGen gA; FGen gB; FTy RStr] [pv; pa; pb; pc];
  (* filters/impls.rs 870-884 *)
  mkimpl [MArg TyMapRef; MGen gA; MArg TyStr; MGen gC]
    [FTy RMapRef; FGen gA; FTy RStr; FGen gC] [(gA, gA); (gC, gC)]
    ([MArg TyMapRef; MGen gA; MArg TyStr; MGen gC], [FTy RMapRef; FGen gA; FTy RStr; FGen gC])
    [pv; pa; pb; pc] [FTy RMapRef; FGen gA; FTy RStr; FGen gC] [pv; pa; pb; pc];
  (* filters/impls.rs 887-900 *)
  mkimpl [MArg TyMapRef; MGen gA; MArg TyStr; MArg TyStr]
    [FTy RMapRef; FGen gA; FTy RStr; FTy RStr] [(gA, gA)]
    ([MArg TyMapRef; MGen gA; MArg TyStr; MArg TyStr], [FTy RMapRef; FGen gA; FTy RStr; FTy RStr])
    [pv; pa; pb; pc] [FTy RMapRef; FGen gA; FTy RStr; FTy RStr] [pv; pa; pb; pc];
  (* filters/impls.rs 903-917 *)
  mkimpl [MArg TyMapRef; MArg TyStr; MGen gB; MGen gC]
    [FTy RMapRef; FTy RStr; FGen gB; FGen gC] [(gB, gB); (gC, gC)]
    ([MArg TyMapRef; MArg TyStr; MGen gB; MGen gC], [FTy RMapRef; FTy RStr; FGen gB; FGen gC])
    [pv; pa; pb; pc] [FTy RMapRef; FTy RStr; FGen gB; FGen gC] [pv; pa; pb; pc];
  (* filters/impls.rs 920-933 *)
  mkimpl [MArg TyMapRef; MArg TyStr; MGen gB; MArg TyStr]
    [FTy RMapRef; FTy RStr; FGen gB; FTy RStr] [(gB, gB)]
    ([MArg TyMapRef; MArg TyStr; MGen gB; MArg TyStr], [FTy RMapRef; FTy RStr; FGen gB; FTy RStr])
    [pv; pa; pb; pc] [FTy RMapRef; FTy RStr; FGen gB; FTy RStr] [pv; pa; pb; pc];
  (* filters/impls.rs 936-949 *)
  mkimpl [MArg TyMapRef; MArg TyStr; MArg TyStr; MGen gC]
    [FTy RMapRef; FTy RStr; FTy RStr; FGen gC] [(gC, gC)]
    ([MArg TyMapRef; MArg TyStr; MArg TyStr; MGen gC], [FTy RMapRef; FTy RStr; FTy RStr; FGen gC])
    [pv; pa; pb; pc] [FTy RMapRef; FTy RStr; FTy RStr; FGen gC] [pv; pa; pb; pc];
  (* filters/impls.rs 952-966 *)
  mkimpl [MArg TyMapRef; MArg TyStr; MArg TyStr; MArg TyStr]
    [FTy RMapRef; FTy RStr; FTy RStr; FTy RStr] []
    ([MArg TyMapRef; MArg TyStr; MArg TyStr; MArg TyStr], [FTy RMapRef; FTy RStr; FTy RStr; FTy RStr])
    [pv; pa; pb; pc] [FTy RMapRef; FTy RStr; FTy RStr; FTy RStr] [pv; pa; pb; pc];
  (* filters/impls.rs 969-983 *)
  mkimpl [MArg TyValueRef; MGen gA; MGen gB; MGen gC]
    [FTy RValueRef; FGen gA; FGen gB; FGen gC] [(gA, gA); (gB, gB); (gC, gC)]
    ([MArg TyValueRef; MGen gA; MGen gB; MGen gC], [FTy RValueRef; FGen gA; FGen gB; FGen gC])
    [pv; pa; pb; pc] [FTy RValueRef; FGen gA; FGen gB; FGen gC] [pv; pa; pb; pc];
  (* filters/impls.rs 986-999 *)
  mkimpl [MArg TyValueRef; MGen gA; MGen gB; MArg TyStr]
    [FTy RValueRef; FGen gA; FGen gB; FTy RStr] [(gA, gA); (gB, gB)]
    ([MArg TyValueRef; MGen gA; MGen gB; MArg TyStr], [FTy RValueRef; FGen gA; FGen gB; FTy RStr])
    [pv; pa; pb; pc] [FTy RValueRef; FGen gA; FGen gB; FTy RStr] [pv; pa; pb; pc];
  (* filters/impls.rs 1002-1015 *)
  mkimpl [MArg TyValueRef; MGen gA; MArg TyStr; MGen gC]
    [FTy RValueRef; FGen gA; FTy RStr; FGen gC] [(gA, gA); (gC, gC)]
    ([MArg TyValueRef; MGen gA; MArg TyStr; MGen gC], [FTy RValueRef; FGen gA; FTy RStr; FGen gC])
    [pv; pa; pb; pc] [FTy RValueRef; FGen gA; FTy RStr; FGen gC] [pv; pa; pb; pc];
  (* filters/impls.rs 1018-1030 *)
  mkimpl [MArg TyValueRef; MGen gA; MArg TyStr; MArg TyStr]
    [FTy RValueRef; FGen gA; FTy RStr; FTy RStr] [(gA, gA)]
    ([MArg TyValueRef; MGen gA; MArg TyStr; MArg TyStr], [FTy RValueRef; FGen gA; FTy RStr; FTy RStr])
    [pv; pa; pb; pc] [FTy RValueRef; FGen gA; FTy RStr; FTy RStr] [pv; pa; pb; pc];
  (* filters/impls.rs 1033-1046 *)
  mkimpl [MArg TyValueRef; MArg TyStr; MGen gB; MGen gC]
    [FTy RValueRef; FTy RStr; FGen gB; FGen gC] [(gB, gB); (gC, gC)]
    ([MArg TyValueRef; MArg TyStr; MGen gB; MGen gC], [FTy RValueRef; FTy RStr; FGen gB; FGen gC])
    [pv; pa; pb; pc] [FTy RValueRef; FTy RStr; FGen gB; FGen gC] [pv; pa; pb; pc];
  (* filters/impls.rs 1049-1061 *)
  mkimpl [MArg TyValueRef; MArg TyStr; MGen gB; MArg TyStr]
    [FTy RValueRef; FTy RStr; FGen gB; FTy RStr] [(gB, gB)]
    ([MArg TyValueRef; MArg TyStr; MGen gB; MArg TyStr], [FTy RValueRef; FTy RStr; FGen gB; FTy RStr])
    [pv; pa; pb; pc] [FTy RValueRef; FTy RStr; FGen gB; FTy RStr] [pv; pa; pb; pc];
  (* filters/impls.rs 1064-1076 *)
  mkimpl [MArg TyValueRef; MArg TyStr; MArg TyStr; MGen gC]
    [FTy RValueRef; FTy RStr; FTy RStr; FGen gC] [(gC, gC)]
    ([MArg TyValueRef; MArg TyStr; MArg TyStr; MGen gC], [FTy RValueRef; FTy RStr; FTy RStr; FGen gC])
    [pv; pa; pb; pc] [FTy RValueRef; FTy RStr; FTy RStr; FGen gC] [pv; pa; pb; pc];
  (* filters/impls.rs 1079-1090 *)
  mkimpl [MArg TyValueRef; MArg TyStr; MArg TyStr; MArg TyStr]
    [FTy RValueRef; FTy RStr; FTy RStr; FTy RStr] []
    ([MArg TyValueRef; MArg TyStr; MArg TyStr; MArg TyStr], [FTy RValueRef; FTy RStr; FTy RStr; FTy RStr])
    [pv; pa; pb; pc] [FTy RValueRef; FTy RStr; FTy RStr; FTy RStr] [pv; pa; pb; pc];
  (* filters/impls.rs 1093-1108 *)
  mkimpl [MGen gV; MGen gA; MGen gB; MGen gC; MArg TyStr]
    [FGen gV; FGen gA; FGen gB; FGen gC; FTy RStr] [(gV, gV); (gA, gA); (gB, gB); (gC, gC)]
    ([MGen gV; MGen gA; MGen gB; MGen gC; MArg TyStr], [FGen gV; FGen gA; FGen gB; FGen gC; FTy RStr])
    [pv; pa; pb; pc; pd] [FGen gV; FGen gA; FGen gB; FGen gC; FTy RStr] [pv; pa; pb; pc; pd];
  (* filters/impls.rs 1111-1126 *)
  mkimpl [MGen gV; MGen gA; MGen gB; MArg TyStr; MGen gD]
    [FGen gV; FGen gA; FGen gB; FTy RStr; FGen gD] [(gV, gV); (gA, gA); (gB, gB); (gD, gD)]
    ([MGen gV; MGen gA; MGen gB; MArg TyStr; MGen gD], [FGen gV; FGen gA; FGen gB; FTy RStr; FGen gD])
    [pv; pa; pb; pc; pd] [FGen gV; FGen gA; FGen gB; FTy RStr; FGen gD] [pv; pa; pb; pc; pd];
  (* filters/impls.rs 1129-1143 *)
  mkimpl [MGen gV; MGen gA; MGen gB; MArg TyStr; MArg TyStr]
    [FGen gV; FGen gA; FGen gB; FTy RStr; FTy RStr] [(gV, gV); (gA, gA); (gB, gB)]
    ([MGen gV; MGen gA; MGen gB; MArg TyStr; MArg TyStr], [FGen gV; FGen gA; FGen gB; FTy RStr; FTy RStr])
    [pv; pa; pb; pc; pd] [FGen gV; FGen gA; FGen gB; FTy RStr; FTy RStr] [pv; pa; pb; pc; pd];
  (* filters/impls.rs 1146-1161 *)
  mkimpl [MGen gV; MGen gA; MArg TyStr; MGen gC; MGen gD]
    [FGen gV; FGen gA; FTy RStr; FGen gC; FGen gD] [(gV, gV); (gA, gA); (gC, gC); (gD, gD)]
    ([MGen gV; MGen gA; MArg TyStr; MGen gC; MGen gD], [FGen gV; FGen gA; FTy RStr; FGen gC; FGen gD])
    [pv; pa; pb; pc; pd] [FGen gV; FGen gA; FTy RStr; FGen gC; FGen gD] [pv; pa; pb; pc; pd];
  (* filters/impls.rs 1164-1178 *)
  mkimpl [MGen gV; MGen gA; MArg TyStr; MGen gC; MArg TyStr]
    [FGen gV; FGen gA; FTy RStr; FGen gC; FTy RStr] [(gV, gV); (gA, gA); (gC, gC)]
    ([MGen gV; MGen gA; MArg TyStr; MGen gC; MArg TyStr], [FGen gV; FGen gA; FTy RStr; FGen gC; FTy RStr])
    [pv; pa; pb; pc; pd] [FGen gV; FGen gA; FTy RStr; FGen gC; FTy RStr] [pv; pa; pb; pc; pd];
  (* filters/impls.rs 1181-1195 *)
  mkimpl [MGen gV; MGen gA; MArg TyStr; MArg TyStr; MGen gD]
    [FGen gV; FGen gA; FTy RStr; FTy RStr; FGen gD] [(gV, gV); (gA, gA); (gD, gD)]
    ([MGen gV; MGen gA; MArg TyStr; MArg TyStr; MGen gD], [FGen gV; FGen gA; FTy RStr; FTy RStr; FGen gD])
    [pv; pa; pb; pc; pd] [FGen gV; FGen gA; FTy RStr; FTy RStr; FGen gD] [pv; pa; pb; pc; pd];
  (* filters/impls.rs 1198-1211 *)
  mkimpl [MGen gV; MGen gA; MArg TyStr; MArg TyStr; MArg TyStr]
    [FGen gV; FGen gA; FTy RStr; FTy RStr; FTy RStr] [(gV, gV); (gA, gA)]
    ([MGen gV; MGen gA; MArg TyStr; MArg TyStr; MArg TyStr], [FGen gV; FGen gA; FTy RStr; FTy RStr; FTy RStr])
    [pv; pa; pb; pc; pd] [FGen gV; FGen gA; FTy RStr; FTy RStr; FTy RStr] [pv; pa; pb; pc; pd];
  (* filters/impls.rs 1214-1229 *)
  mkimpl [MGen gV; MArg TyStr; MGen gB; MGen gC; MGen gD]
    [FGen gV; FTy RStr; FGen gB; FGen gC; FGen gD] [(gV, gV); (gB, gB); (gC, gC); (gD, gD)]
    ([MGen gV; MArg TyStr; MGen gB; MGen gC; MGen gD], [FGen gV; FTy RStr; FGen gB; FGen gC; FGen gD])
    [pv; pa; pb; pc; pd] [FGen gV; FTy RStr; FGen gB; FGen gC; FGen gD] [pv; pa; pb; pc; pd];
  (* filters/impls.rs 1232-1246 *)
  mkimpl [MGen gV; MArg TyStr; MGen gB; MGen gC; MArg TyStr]
    [FGen gV; FTy RStr; FGen gB; FGen gC; FTy RStr] [(gV, gV); (gB, gB); (gC, gC)]
    ([MGen gV; MArg TyStr; MGen gB; MGen gC; MArg TyStr], [FGen gV; FTy RStr; FGen gB; FGen gC; FTy RStr])
    [pv; pa; pb; pc; pd] [FGen gV; FTy RStr; FGen gB; FGen gC; FTy RStr] [pv; pa; pb; pc; pd];
  (* filters/impls.rs 1249-1263 *)
  mkimpl [MGen gV; MArg TyStr; MGen gB; MArg TyStr; MGen gD]
    [FGen gV; FTy RStr; FGen gB; FTy RStr; FGen gD] [(gV, gV); (gB, gB); (gD, gD)]
    ([MGen gV; MArg TyStr; MGen gB; MArg TyStr; MGen gD], [FGen gV; FTy RStr; FGen gB; FTy RStr; FGen gD])
    [pv; pa; pb; pc; pd] [FGen gV; FTy RStr; FGen gB; FTy RStr; FGen gD] [pv; pa; pb; pc; pd];
  (* filters/impls.rs 1266-1279 *)
  mkimpl [MGen gV; MArg TyStr; MGen gB; MArg TyStr; MArg TyStr]
    [FGen gV; FTy RStr; FGen gB; FTy RStr; FTy RStr] [(gV, gV); (gB, gB)]
    ([MGen gV; MArg TyStr; MGen gB; MArg TyStr; MArg TyStr], [FGen gV; FTy RStr; FGen gB; FTy RStr; FTy RStr])
    [pv; pa; pb; pc; pd] [FGen gV; FTy RStr; FGen gB; FTy RStr; FTy RStr] [pv; pa; pb; pc; pd];
  (* filters/impls.rs 1282-1296 *)
  mkimpl [MGen gV; MArg TyStr; MArg TyStr; MGen gC; MGen gD]
    [FGen gV; FTy RStr; FTy RStr; FGen gC; FGen gD] [(gV, gV); (gC, gC); (gD, gD)]
    ([MGen gV; MArg TyStr; MArg TyStr; MGen gC; MGen gD], [FGen gV; FTy RStr; FTy RStr; FGen gC; FGen gD])
    [pv; pa; pb; pc; pd] [FGen gV; FTy RStr; FTy RStr; FGen gC; FGen gD] [pv; pa; pb; pc; pd];
  (* filters/impls.rs 1299-1312 *)
  mkimpl [MGen gV; MArg TyStr; MArg TyStr; MGen gC; MArg TyStr]
    [FGen gV; FTy RStr; FTy RStr; FGen gC; FTy RStr] [(gV, gV); (gC, gC)]
    ([MGen gV; MArg TyStr; MArg TyStr; MGen gC; MArg TyStr], [FGen gV; FTy RStr; FTy RStr; FGen gC; FTy RStr])
    [pv; pa; pb; pc; pd] [FGen gV; FTy RStr; FTy RStr; FGen gC; FTy RStr] [pv; pa; pb; pc; pd];
  (* filters/impls.rs 1315-1328 *)
  mkimpl [MGen gV; MArg TyStr; MArg TyStr; MArg TyStr; MGen gD]
    [FGen gV; FTy RStr; FTy RStr; FTy RStr; FGen gD] [(gV, gV); (gD, gD)]
    ([MGen gV; MArg TyStr; MArg TyStr; MArg TyStr; MGen gD], [FGen gV; FTy RStr; FTy RStr; FTy RStr; FGen gD])
    [pv; pa; pb; pc; pd] [FGen gV; FTy RStr; FTy RStr; FTy RStr; FGen gD] [pv; pa; pb; pc; pd];
  (* filters/impls.rs 1331-1344 *)
  mkimpl [MGen gV; MArg TyStr; MArg TyStr; MArg TyStr; MArg TyStr]
    [FGen gV; FTy RStr; FTy RStr; FTy RStr; FTy RStr] [(gV, gV)]
    ([MGen gV; MArg TyStr; MArg TyStr; MArg TyStr; MArg TyStr], [FGen gV; FTy RStr; FTy RStr; FTy RStr; FTy RStr])
    [pv; pa; pb; pc; pd] [FGen gV; FTy RStr; FTy RStr; FTy RStr; FTy RStr] [pv; pa; pb; pc; pd];
  (* filters/impls.rs 1347-1362 *)
  mkimpl [MArg TyStr; MGen gA; MGen gB; MGen gC; MGen gD]
    [FTy RStr; FGen gA; FGen gB; FGen gC; FGen gD] [(gA, gA); (gB, gB); (gC, gC); (gD, gD)]
    ([MArg TyStr; MGen gA; MGen gB; MGen gC; MGen gD], [FTy RStr; FGen gA; FGen gB; FGen gC; FGen gD])
    [pv; pa; pb; pc; pd] [FTy RStr; FGen gA; FGen gB; FGen gC; FGen gD] [pv; pa; pb; pc; pd];
  (* filters/impls.rs 1365-1379 *)
  mkimpl [MArg TyStr; MGen gA; MGen gB; MGen gC; MArg TyStr]
    [FTy RStr; FGen gA; FGen gB; FGen gC; FTy RStr] [(gA, gA); (gB, gB); (gC, gC)]
    ([MArg TyStr; MGen gA; MGen gB; MGen gC; MArg TyStr], [FTy RStr; FGen gA; FGen gB; FGen gC; FTy RStr])
    [pv; pa; pb; pc; pd] [FTy RStr; FGen gA; FGen gB; FGen gC; FTy RStr] [pv; pa; pb; pc; pd];
  (* filters/impls.rs 1382-1396 *)
  mkimpl [MArg TyStr; MGen gA; MGen gB; MArg TyStr; MGen gD]
    [FTy RStr; FGen gA; FGen gB; FTy RStr; FGen gD] [(gA, gA); (gB, gB); (gD, gD)]
    ([MArg TyStr; MGen gA; MGen gB; MArg TyStr; MGen gD], [FTy RStr; FGen gA; FGen gB; FTy RStr; FGen gD])
    [pv; pa; pb; pc; pd] [FTy RStr; FGen gA; FGen gB; FTy RStr; FGen gD] [pv; pa; pb; pc; pd];
  (* filters/impls.rs 1399-1412 *)
  mkimpl [MArg TyStr; MGen gA; MGen gB; MArg TyStr; MArg TyStr]
    [FTy RStr; FGen gA; FGen gB; FTy RStr; FTy RStr] [(gA, gA); (gB, gB)]
    ([MArg TyStr; MGen gA; MGen gB; MArg TyStr; MArg TyStr], [FTy RStr; FGen gA; FGen gB; FTy RStr; FTy RStr])
    [pv; pa; pb; pc; pd] [FTy RStr; FGen gA; FGen gB; FTy RStr; FTy RStr] [pv; pa; pb; pc; pd];
  (* filters/impls.rs 1415-1429 *)
  mkimpl [MArg TyStr; MGen gA; MArg TyStr; MGen gC; MGen gD]
    [FTy RStr; FGen gA; FTy RStr; FGen gC; FGen gD] [(gA, gA); (gC, gC); (gD, gD)]
    ([MArg TyStr; MGen gA; MArg TyStr; MGen gC; MGen gD], [FTy RStr; FGen gA; FTy RStr; FGen gC; FGen gD])
    [pv; pa; pb; pc; pd] [FTy RStr; FGen gA; FTy RStr; FGen gC; FGen gD] [pv; pa; pb; pc; pd];
  (* filters/impls.rs 1432-1445 *)
  mkimpl [MArg TyStr; MGen gA; MArg TyStr; MGen gC; MArg TyStr]
    [FTy RStr; FGen gA; FTy RStr; FGen gC; FTy RStr] [(gA, gA); (gC, gC)]
    ([MArg TyStr; MGen gA; MArg TyStr; MGen gC; MArg TyStr], [FTy RStr; FGen gA; FTy RStr; FGen gC; FTy RStr])
    [pv; pa; pb; pc; pd] [FTy RStr; FGen gA; FTy RStr; FGen gC; FTy RStr] [pv; pa; pb; pc; pd];
  (* filters/impls.rs 1448-1461 *)
  mkimpl [MArg TyStr; MGen gA; MArg TyStr; MArg TyStr; MGen gD]
    [FTy RStr; FGen gA; FTy RStr; FTy RStr; FGen gD] [(gA, gA); (gD, gD)]
    ([MArg TyStr; MGen gA; MArg TyStr; MArg TyStr; MGen gD], [FTy RStr; FGen gA; FTy RStr; FTy RStr; FGen gD])
    [pv; pa; pb; pc; pd] [FTy RStr; FGen gA; FTy RStr; FTy RStr; FGen gD] [pv; pa; pb; pc; pd];
  (* filters/impls.rs 1464-1477 *)
  mkimpl [MArg TyStr; MGen gA; MArg TyStr; MArg TyStr; MArg TyStr]
    [FTy RStr; FGen gA; FTy RStr; FTy RStr; FTy RStr] [(gA, gA)]
    ([MArg TyStr; MGen gA; MArg TyStr; MArg TyStr; MArg TyStr], [FTy RStr; FGen gA; FTy RStr; FTy RStr; FTy RStr])
    [pv; pa; pb; pc; pd] [FTy RStr; FGen gA; FTy RStr; FTy RStr; FTy RStr] [pv; pa; pb; pc; pd];
  (* filters/impls.rs 1480-1494 *)
  mkimpl [MArg TyStr; MArg TyStr; MGen gB; MGen gC; MGen gD]
    [FTy RStr; FTy RStr; FGen gB; FGen gC; FGen gD] [(gB, gB); (gC, gC); (gD, gD)]
    ([MArg TyStr; MArg TyStr; MGen gB; MGen gC; MGen gD], [FTy RStr; FTy RStr; FGen gB; FGen gC; FGen gD])
    [pv; pa; pb; pc; pd] [FTy RStr; FTy RStr; FGen gB; FGen gC; FGen gD] [pv; pa; pb; pc; pd];
  (* filters/impls.rs 1497-1510 *)
  mkimpl [MArg TyStr; MArg TyStr; MGen gB; MGen gC; MArg TyStr]
    [FTy RStr; FTy RStr; FGen gB; FGen gC; FTy RStr] [(gB, gB); (gC, gC)]
    ([MArg TyStr; MArg TyStr; MGen gB; MGen gC; MArg TyStr], [FTy RStr; FTy RStr; FGen gB; FGen gC; FTy RStr])
    [pv; pa; pb; pc; pd] [FTy RStr; FTy RStr; FGen gB; FGen gC; FTy RStr] [pv; pa; pb; pc; pd];
  (* filters/impls.rs 1513-1526 *)
  mkimpl [MArg TyStr; MArg TyStr; MGen gB; MArg TyStr; MGen gD]
    [FTy RStr; FTy RStr; FGen gB; FTy RStr; FGen gD] [(gB, gB); (gD, gD)]
    ([MArg TyStr; MArg TyStr; MGen gB; MArg TyStr; MGen gD], [FTy RStr; FTy RStr; FGen gB; FTy RStr; FGen gD])
    [pv; pa; pb; pc; pd] [FTy RStr; FTy RStr; FGen gB; FTy RStr; FGen gD] [pv; pa; pb; pc; pd];
  (* filters/impls.rs 1529-1542 *)
  mkimpl [MArg TyStr; MArg TyStr; MGen gB; MArg TyStr; MArg TyStr]
    [FTy RStr; FTy RStr; FGen gB; FTy RStr; FTy RStr] [(gB, gB)]
    ([MArg TyStr; MArg TyStr; MGen gB; MArg TyStr; MArg TyStr], [FTy RStr; FTy RStr; FGen gB; FTy RStr; FTy RStr])
    [pv; pa; pb; pc; pd] [FTy RStr; FTy RStr; FGen gB; FTy RStr; FTy RStr] [pv; pa; pb; pc; pd];
  (* filters/impls.rs 1545-1558 *)
  mkimpl [MArg TyStr; MArg TyStr; MArg TyStr; MGen gC; MGen gD]
    [FTy RStr; FTy RStr; FTy RStr; FGen gC; FGen gD] [(gC, gC); (gD, gD)]
    ([MArg TyStr; MArg TyStr; MArg TyStr; MGen gC; MGen gD], [FTy RStr; FTy RStr; FTy RStr; FGen gC; FGen gD])
    [pv; pa; pb; pc; pd] [FTy RStr; FTy RStr; FTy RStr; FGen gC; FGen gD] [pv; pa; pb; pc; pd];
  (* filters/impls.rs 1561-1574 *)
  mkimpl [MArg TyStr; MArg TyStr; MArg TyStr; MGen gC; MArg TyStr]
    [FTy RStr; FTy RStr; FTy RStr; FGen gC; FTy RStr] [(gC, gC)]
    ([MArg TyStr; MArg TyStr; MArg TyStr; MGen gC; MArg TyStr], [FTy RStr; FTy RStr; FTy RStr; FGen gC; FTy RStr])
    [pv; pa; pb; pc; pd] [FTy RStr; FTy RStr; FTy RStr; FGen gC; FTy RStr] [pv; pa; pb; pc; pd];
  (* filters/impls.rs 1577-1590 *)
  mkimpl [MArg TyStr; MArg TyStr; MArg TyStr; MArg TyStr; MGen gD]
    [FTy RStr; FTy RStr; FTy RStr; FTy RStr; FGen gD] [(gD, gD)]
    ([MArg TyStr; MArg TyStr; MArg TyStr; MArg TyStr; MGen gD], [FTy RStr; FTy RStr; FTy RStr; FTy RStr; FGen gD])
    [pv; pa; pb; pc; pd] [FTy RStr; FTy RStr; FTy RStr; FTy RStr; FGen gD] [pv; pa; pb; pc; pd];
  (* filters/impls.rs 1593-1604 *)
  mkimpl [MArg TyStr; MArg TyStr; MArg TyStr; MArg TyStr; MArg TyStr]
    [FTy RStr; FTy RStr; FTy RStr; FTy RStr; FTy RStr] []
    ([MArg TyStr; MArg TyStr; MArg TyStr; MArg TyStr; MArg TyStr], [FTy RStr; FTy RStr; FTy RStr; FTy RStr; FTy RStr])
    [pv; pa; pb; pc; pd] [FTy RStr; FTy RStr; FTy RStr; FTy RStr; FTy RStr] [pv; pa; pb; pc; pd];
  (* filters/impls.rs 1607-1622 *)
  mkimpl [MArg TyListRef; MGen gA; MGen gB; MGen gC; MGen gD]
    [FTy RSlice; FGen gA; FGen gB; FGen gC; FGen gD] [(gA, gA); (gB, gB); (gC, gC); (gD, gD)]
    ([MArg TyListRef; MGen gA; MGen gB; MGen gC; MGen gD], [FTy RSlice; FGen gA; FGen gB; FGen gC; FGen gD])
    [pv; pa; pb; pc; pd] [FTy RSlice; FGen gA; FGen gB; FGen gC; FGen gD] [pv; pa; pb; pc; pd];
  (* filters/impls.rs 1625-1639 *)
  mkimpl [MArg TyListRef; MGen gA; MGen gB; MGen gC; MArg TyStr]
    [FTy RSlice; FGen gA; FGen gB; FGen gC; FTy RStr] [(gA, gA); (gB, gB); (gC, gC)]
    ([MArg TyListRef; MGen gA; MGen gB; MGen gC; MArg TyStr], [FTy RSlice; FGen gA; FGen gB; FGen gC; FTy RStr])
    [pv; pa; pb; pc; pd] [FTy RSlice; FGen gA; FGen gB; FGen gC; FTy RStr] [pv; pa; pb; pc; pd];
  (* filters/impls.rs 1642-1656 *)
  mkimpl [MArg TyListRef; MGen gA; MGen gB; MArg TyStr; MGen gD]
    [FTy RSlice; FGen gA; FGen gB; FTy RStr; FGen gD] [(gA, gA); (gB, gB); (gD, gD)]
    ([MArg TyListRef; MGen gA; MGen gB; MArg TyStr; MGen gD], [FTy RSlice; FGen gA; FGen gB; FTy RStr; FGen gD])
    [pv; pa; pb; pc; pd] [FTy RSlice; FGen gA; FGen gB; FTy RStr; FGen gD] [pv; pa; pb; pc; pd];
  (* filters/impls.rs 1659-1673 *)
  mkimpl [MArg TyListRef; MGen gA; MGen gB; MArg TyStr; MArg TyStr]
    [FTy RSlice; FGen gA; FGen gB; FTy RStr; FTy RStr] [(gA, gA); (gB, gB)]
    ([MArg TyListRef; MGen gA; MGen gB; MArg TyStr; MArg TyStr], [FTy RSlice; FGen gA; FGen gB; FTy RStr; FTy RStr])
    [pv; pa; pb; pc; pd] [FTy RSlice; FGen gA; FGen gB; FTy RStr; FTy RStr] [pv; pa; pb; pc; pd];
  (* filters/impls.rs 1676-1690 *)
  mkimpl [MArg TyListRef; MGen gA; MArg TyStr; MGen gC; MGen gD]
    [FTy RSlice; FGen gA; FTy RStr; FGen gC; FGen gD] [(gA, gA); (gC, gC); (gD, gD)]
    ([MArg TyListRef; MGen gA; MArg TyStr; MGen gC; MGen gD], [FTy RSlice; FGen gA; FTy RStr; FGen gC; FGen gD])
    [pv; pa; pb; pc; pd] [FTy RSlice; FGen gA; FTy RStr; FGen gC; FGen gD] [pv; pa; pb; pc; pd];
  (* filters/impls.rs 1693-1707 *)
  mkimpl [MArg TyListRef; MGen gA; MArg TyStr; MGen gC; MArg TyStr]
    [FTy RSlice; FGen gA; FTy RStr; FGen gC; FTy RStr] [(gA, gA); (gC, gC)]
    ([MArg TyListRef; MGen gA; MArg TyStr; MGen gC; MArg TyStr], [FTy RSlice; FGen gA; FTy RStr; FGen gC; FTy RStr])
    [pv; pa; pb; pc; pd] [FTy RSlice; FGen gA; FTy RStr; FGen gC; FTy RStr] [pv; pa; pb; pc; pd];
  (* filters/impls.rs 1710-1724 *)
  mkimpl [MArg TyListRef; MGen gA; MArg TyStr; MArg TyStr; MGen gD]
    [FTy RSlice; FGen gA; FTy RStr; FTy RStr; FGen gD] [(gA, gA); (gD, gD)]
    ([MArg TyListRef; MGen gA; MArg TyStr; MArg TyStr; MGen gD], [FTy RSlice; FGen gA; FTy RStr; FTy RStr; FGen gD])
    [pv; pa; pb; pc; pd] [FTy RSlice; FGen gA; FTy RStr; FTy RStr; FGen gD] [pv; pa; pb; pc; pd];
  (* filters/impls.rs 1727-1740 *)
  mkimpl [MArg TyListRef; MGen gA; MArg TyStr; MArg TyStr; MArg TyStr]
    [FTy RSlice; FGen gA; FTy RStr; FTy RStr; FTy RStr] [(gA, gA)]
    ([MArg TyListRef; MGen gA; MArg TyStr; MArg TyStr; MArg TyStr], [FTy RSlice; FGen gA; FTy RStr; FTy RStr; FTy RStr])
    [pv; pa; pb; pc; pd] [FTy RSlice; FGen gA; FTy RStr; FTy RStr; FTy RStr] [pv; pa; pb; pc; pd];
  (* filters/impls.rs 1743-1757 *)
  mkimpl [MArg TyListRef; MArg TyStr; MGen gB; MGen gC; MGen gD]
    [FTy RSlice; FTy RStr; FGen gB; FGen gC; FGen gD] [(gB, gB); (gC, gC); (gD, gD)]
    ([MArg TyListRef; MArg TyStr; MGen gB; MGen gC; MGen gD], [FTy RSlice; FTy RStr; FGen gB; FGen gC; FGen gD])
    [pv; pa; pb; pc; pd] [FTy RSlice; FTy RStr; FGen gB; FGen gC; FGen gD] [pv; pa; pb; pc; pd];
  (* filters/impls.rs 1760-1774 *)
  mkimpl [MArg TyListRef; MArg TyStr; MGen gB; MGen gC; MArg TyStr]
    [FTy RSlice; FTy RStr; FGen gB; FGen gC; FTy RStr] [(gB, gB); (gC, gC)]
    ([MArg TyListRef; MArg TyStr; MGen gB; MGen gC; MArg TyStr], [FTy RSlice; FTy RStr; FGen gB; FGen gC; FTy RStr])
    [pv; pa; pb; pc; pd] [FTy RSlice; FTy RStr; FGen gB; FGen gC; FTy RStr] [pv; pa; pb; pc; pd];
  (* filters/impls.rs 1777-1791 *)
  mkimpl [MArg TyListRef; MArg TyStr; MGen gB; MArg TyStr; MGen gD]
    [FTy RSlice; FTy RStr; FGen gB; FTy RStr; FGen gD] [(gB, gB); (gD, gD)]
    ([MArg TyListRef; MArg TyStr; MGen gB; MArg TyStr; MGen gD], [FTy RSlice; FTy RStr; FGen gB; FTy RStr; FGen gD])
    [pv; pa; pb; pc; pd] [FTy RSlice; FTy RStr; FGen gB; FTy RStr; FGen gD] [pv; pa; pb; pc; pd];
  (* filters/impls.rs 1794-1807 *)
  mkimpl [MArg TyListRef; MArg TyStr; MGen gB; MArg TyStr; MArg TyStr]
    [FTy RSlice; FTy RStr; FGen gB; FTy RStr; FTy RStr] [(gB, gB)]
    ([MArg TyListRef; MArg TyStr; MGen gB; MArg TyStr; MArg TyStr], [FTy RSlice; FTy RStr; FGen gB; FTy RStr; FTy RStr])
    [pv; pa; pb; pc; pd] [FTy RSlice; FTy RStr; FGen gB; FTy RStr; FTy RStr] [pv; pa; pb; pc; pd];
  (* filters/impls.rs 1810-1824 *)
  mkimpl [MArg TyListRef; MArg TyStr; MArg TyStr; MGen gC; MGen gD]
    [FTy RSlice; FTy RStr; FTy RStr; FGen gC; FGen gD] [(gC, gC); (gD, gD)]
    ([MArg TyListRef; MArg TyStr; MArg TyStr; MGen gC; MGen gD], [FTy RSlice; FTy RStr; FTy RStr; FGen gC; FGen gD])
    [pv; pa; pb; pc; pd] [FTy RSlice; FTy RStr; FTy RStr; FGen gC; FGen gD] [pv; pa; pb; pc; pd];
  (* filters/impls.rs 1827-1840 *)
  mkimpl [MArg TyListRef; MArg TyStr; MArg TyStr; MGen gC; MArg TyStr]
    [FTy RSlice; FTy RStr; FTy RStr; FGen gC; FTy RStr] [(gC, gC)]
    ([MArg TyListRef; MArg TyStr; MArg TyStr; MGen gC; MArg TyStr], [FTy RSlice; FTy RStr; FTy RStr; FGen gC; FTy RStr])
    [pv; pa; pb; pc; pd] [FTy RSlice; FTy RStr; FTy RStr; FGen gC; FTy RStr] [pv; pa; pb; pc; pd];
  (* filters/impls.rs 1843-1856 *)
  mkimpl [MArg TyListRef; MArg TyStr; MArg TyStr; MArg TyStr; MGen gD]
    [FTy RSlice; FTy RStr; FTy RStr; FTy RStr; FGen gD] [(gD, gD)]
    ([MArg TyListRef; MArg TyStr; MArg TyStr; MArg TyStr; MGen gD], [FTy RSlice; FTy RStr; FTy RStr; FTy RStr; FGen gD])
    [pv; pa; pb; pc; pd] [FTy RSlice; FTy RStr; FTy RStr; FTy RStr; FGen gD] [pv; pa; pb; pc; pd];
  (* filters/impls.rs 1859-1870 *)
  mkimpl [MArg TyListRef; MArg TyStr; MArg TyStr; MArg TyStr; MArg TyStr]
    [FTy RSlice; FTy RStr; FTy RStr; FTy RStr; FTy RStr] []
    ([MArg TyListRef; MArg TyStr; MArg TyStr; MArg TyStr; MArg TyStr], [FTy RSlice; FTy RStr; FTy RStr; FTy RStr; FTy RStr])
    [pv; pa; pb; pc; pd] [FTy RSlice; FTy RStr; FTy RStr; FTy RStr; FTy RStr] [pv; pa; pb; pc; pd];
  (* filters/impls.rs 1873-1889 *)
  mkimpl [MArg TyMapRef; MGen gA; MGen gB; MGen gC; MGen gD]
    [FTy RMapRef; FGen gA; FGen gB; FGen gC; FGen gD] [(gA, gA); (gB, gB); (gC, gC); (gD, gD)]
    ([MArg TyMapRef; MGen gA; MGen gB; MGen gC; MGen gD], [FTy RMapRef; FGen gA; FGen gB; FGen gC; FGen gD])
    [pv; pa; pb; pc; pd] [FTy RMapRef; FGen gA; FGen gB; FGen gC; FGen gD] [pv; pa; pb; pc; pd];
  (* filters/impls.rs 1892-1907 *)
  mkimpl [MArg TyMapRef; MGen gA; MGen gB; MGen gC; MArg TyStr]
    [FTy RMapRef; FGen gA; FGen gB; FGen gC; FTy RStr] [(gA, gA); (gB, gB); (gC, gC)]
    ([MArg TyMapRef; MGen gA; MGen gB; MGen gC; MArg TyStr], [FTy RMapRef; FGen gA; FGen gB; FGen gC; FTy RStr])
    [pv; pa; pb; pc; pd] [FTy RMapRef; FGen gA; FGen gB; FGen gC; FTy RStr] [pv; pa; pb; pc; pd];
  (* filters/impls.rs 1910-1925 *)
  mkimpl [MArg TyMapRef; MGen gA; MGen gB; MArg TyStr; MGen gD]
    [FTy RMapRef; FGen gA; FGen gB; FTy RStr; FGen gD] [(gA, gA); (gB, gB); (gD, gD)]
    ([MArg TyMapRef; MGen gA; MGen gB; MArg TyStr; MGen gD], [FTy RMapRef; FGen gA; FGen gB; FTy RStr; FGen gD])
    [pv; pa; pb; pc; pd] [FTy RMapRef; FGen gA; FGen gB; FTy RStr; FGen gD] [pv; pa; pb; pc; pd];
  (* filters/impls.rs 1928-1945 *)
  mkimpl [MArg TyMapRef; MGen gA; MGen gB; MArg TyStr; MArg TyStr]
    [FTy RMapRef; FGen gA; FGen gB; FTy RStr; FTy RStr] [(gA, gA); (gB, gB)]
    ([MArg TyMapRef; MGen gA; MGen gB; MArg TyStr; MArg TyStr], [FTy RMapRef; FGen gA; FGen gB; FTy RStr; FTy RStr])
    [pv; pa; pb; pc; pd] [FTy RMapRef; FGen gA; FGen gB; FTy RStr; FTy RStr] [pv; pa; pb; pc; pd];
  (* filters/impls.rs 1948-1963 *)
  mkimpl [MArg TyMapRef; MGen gA; MArg TyStr; MGen gC; MGen gD]
    [FTy RMapRef; FGen gA; FTy RStr; FGen gC; FGen gD] [(gA, gA); (gC, gC); (gD, gD)]
    ([MArg TyMapRef; MGen gA; MArg TyStr; MGen gC; MGen gD], [FTy RMapRef; FGen gA; FTy RStr; FGen gC; FGen gD])
    [pv; pa; pb; pc; pd] [FTy RMapRef; FGen gA; FTy RStr; FGen gC; FGen gD] [pv; pa; pb; pc; pd];
  (* filters/impls.rs 1966-1983 *)
  mkimpl [MArg TyMapRef; MGen gA; MArg TyStr; MGen gC; MArg TyStr]
    [FTy RMapRef; FGen gA; FTy RStr; FGen gC; FTy RStr] [(gA, gA); (gC, gC)]
    ([MArg TyMapRef; MGen gA; MArg TyStr; MGen gC; MArg TyStr], [FTy RMapRef; FGen gA; FTy RStr; FGen gC; FTy RStr])
    [pv; pa; pb; pc; pd] [FTy RMapRef; FGen gA; FTy RStr; FGen gC; FTy RStr] [pv; pa; pb; pc; pd];
  (* filters/impls.rs 1986-2003 *)
  mkimpl [MArg TyMapRef; MGen gA; MArg TyStr; MArg TyStr; MGen gD]
    [FTy RMapRef; FGen gA; FTy RStr; FTy RStr; FGen gD] [(gA, gA); (gD, gD)]
    ([MArg TyMapRef; MGen gA; MArg TyStr; MArg TyStr; MGen gD], [FTy RMapRef; FGen gA; FTy RStr; FTy RStr; FGen gD])
    [pv; pa; pb; pc; pd] [FTy RMapRef; FGen gA; FTy RStr; FTy RStr; FGen gD] [pv; pa; pb; pc; pd];
  (* filters/impls.rs 2006-2023 *)
  mkimpl [MArg TyMapRef; MGen gA; MArg TyStr; MArg TyStr; MArg TyStr]
    [FTy RMapRef; FGen gA; FTy RStr; FTy RStr; FTy RStr] [(gA, gA)]
    ([MArg TyMapRef; MGen gA; MArg TyStr; MArg TyStr; MArg TyStr], [FTy RMapRef; FGen gA; FTy RStr; FTy RStr; FTy RStr])
    [pv; pa; pb; pc; pd] [FTy RMapRef; FGen gA; FTy RStr; FTy RStr; FTy RStr] [pv; pa; pb; pc; pd];
  (* filters/impls.rs 2026-2041 *)
  mkimpl [MArg TyMapRef; MArg TyStr; MGen gB; MGen gC; MGen gD]
    [FTy RMapRef; FTy RStr; FGen gB; FGen gC; FGen gD] [(gB, gB); (gC, gC); (gD, gD)]
    ([MArg TyMapRef; MArg TyStr; MGen gB; MGen gC; MGen gD], [FTy RMapRef; FTy RStr; FGen gB; FGen gC; FGen gD])
    [pv; pa; pb; pc; pd] [FTy RMapRef; FTy RStr; FGen gB; FGen gC; FGen gD] [pv; pa; pb; pc; pd];
  (* filters/impls.rs 2044-2061 *)
  mkimpl [MArg TyMapRef; MArg TyStr; MGen gB; MGen gC; MArg TyStr]
    [FTy RMapRef; FTy RStr; FGen gB; FGen gC; FTy RStr] [(gB, gB); (gC, gC)]
    ([MArg TyMapRef; MArg TyStr; MGen gB; MGen gC; MArg TyStr], [FTy RMapRef; FTy RStr; FGen gB; FGen gC; FTy RStr])
    [pv; pa; pb; pc; pd] [FTy RMapRef; FTy RStr; FGen gB; FGen gC; FTy RStr] [pv; pa; pb; pc; pd];
  (* filters/impls.rs 2064-2081 *)
  mkimpl [MArg TyMapRef; MArg TyStr; MGen gB; MArg TyStr; MGen gD]
    [FTy RMapRef; FTy RStr; FGen gB; FTy RStr; FGen gD] [(gB, gB); (gD, gD)]
    ([MArg TyMapRef; MArg TyStr; MGen gB; MArg TyStr; MGen gD], [FTy RMapRef; FTy RStr; FGen gB; FTy RStr; FGen gD])
    [pv; pa; pb; pc; pd] [FTy RMapRef; FTy RStr; FGen gB; FTy RStr; FGen gD] [pv; pa; pb; pc; pd];
  (* filters/impls.rs 2084-2101 *)
  mkimpl [MArg TyMapRef; MArg TyStr; MGen gB; MArg TyStr; MArg TyStr]
    [FTy RMapRef; FTy RStr; FGen gB; FTy RStr; FTy RStr] [(gB, gB)]
    ([MArg TyMapRef; MArg TyStr; MGen gB; MArg TyStr; MArg TyStr], [FTy RMapRef; FTy RStr; FGen gB; FTy RStr; FTy RStr])
    [pv; pa; pb; pc; pd] [FTy RMapRef; FTy RStr; FGen gB; FTy RStr; FTy RStr] [pv; pa; pb; pc; pd];
  (* filters/impls.rs 2104-2121 *)
  mkimpl [MArg TyMapRef; MArg TyStr; MArg TyStr; MGen gC; MGen gD]
    [FTy RMapRef; FTy RStr; FTy RStr; FGen gC; FGen gD] [(gC, gC); (gD, gD)]
    ([MArg TyMapRef; MArg TyStr; MArg TyStr; MGen gC; MGen gD], [FTy RMapRef; FTy RStr; FTy RStr; FGen gC; FGen gD])
    [pv; pa; pb; pc; pd] [FTy RMapRef; FTy RStr; FTy RStr; FGen gC; FGen gD] [pv; pa; pb; pc; pd];
  (* filters/impls.rs 2124-2141 *)
  mkimpl [MArg TyMapRef; MArg TyStr; MArg TyStr; MGen gC; MArg TyStr]
    [FTy RMapRef; FTy RStr; FTy RStr; FGen gC; FTy RStr] [(gC, gC)]
    ([MArg TyMapRef; MArg TyStr; MArg TyStr; MGen gC; MArg TyStr], [FTy RMapRef; FTy RStr; FTy RStr; FGen gC; FTy RStr])
    [pv; pa; pb; pc; pd] [FTy RMapRef; FTy RStr; FTy RStr; FGen gC; FTy RStr] [pv; pa; pb; pc; pd];
  (* filters/impls.rs 2144-2161 *)
  mkimpl [MArg TyMapRef; MArg TyStr; MArg TyStr; MArg TyStr; MGen gD]
    [FTy RMapRef; FTy RStr; FTy RStr; FTy RStr; FGen gD] [(gD, gD)]
    ([MArg TyMapRef; MArg TyStr; MArg TyStr; MArg TyStr; MGen gD], [FTy RMapRef; FTy RStr; FTy RStr; FTy RStr; FGen gD])
    [pv; pa; pb; pc; pd] [FTy RMapRef; FTy RStr; FTy RStr; FTy RStr; FGen gD] [pv; pa; pb; pc; pd];
  (* filters/impls.rs 2164-2191 *)
  mkimpl [MArg TyMapRef; MArg TyStr; MArg TyStr; MArg TyStr; MArg TyStr]
    [FTy RMapRef; FTy RStr; FTy RStr; FTy RStr; FTy RStr] []
    ([MArg TyMapRef; MArg TyStr; MArg TyStr; MArg TyStr; MArg TyStr], [FTy RMapRef; FTy RStr; FTy RStr; FTy RStr; FTy RStr])
    [pv; pa; pb; pc; pd] [FTy RMapRef; FTy RStr; FTy RStr; FTy RStr; FTy RStr] [pv; pa; pb; pc; pd];
  (* filters/impls.rs 2194-2209 *)
  mkimpl [MArg TyValueRef; MGen gA; MGen gB; MGen gC; MGen gD]
    [FTy RValueRef; FGen gA; FGen gB; FGen gC; FGen gD] [(gA, gA); (gB, gB); (gC, gC); (gD, gD)]
    ([MArg TyValueRef; MGen gA; MGen gB; MGen gC; MGen gD], [FTy RValueRef; FGen gA; FGen gB; FGen gC; FGen gD])
    [pv; pa; pb; pc; pd] [FTy RValueRef; FGen gA; FGen gB; FGen gC; FGen gD] [pv; pa; pb; pc; pd];
  (* filters/impls.rs 2212-2226 *)
  mkimpl [MArg TyValueRef; MGen gA; MGen gB; MGen gC; MArg TyStr]
    [FTy RValueRef; FGen gA; FGen gB; FGen gC; FTy RStr] [(gA, gA); (gB, gB); (gC, gC)]
    ([MArg TyValueRef; MGen gA; MGen gB; MGen gC; MArg TyStr], [FTy RValueRef; FGen gA; FGen gB; FGen gC; FTy RStr])
    [pv; pa; pb; pc; pd] [FTy RValueRef; FGen gA; FGen gB; FGen gC; FTy RStr] [pv; pa; pb; pc; pd];
  (* filters/impls.rs 2229-2243 *)
  mkimpl [MArg TyValueRef; MGen gA; MGen gB; MArg TyStr; MGen gD]
    [FTy RValueRef; FGen gA; FGen gB; FTy RStr; FGen gD] [(gA, gA); (gB, gB); (gD, gD)]
    ([MArg TyValueRef; MGen gA; MGen gB; MArg TyStr; MGen gD], [FTy RValueRef; FGen gA; FGen gB; FTy RStr; FGen gD])
    [pv; pa; pb; pc; pd] [FTy RValueRef; FGen gA; FGen gB; FTy RStr; FGen gD] [pv; pa; pb; pc; pd];
  (* filters/impls.rs 2246-2260 *)
  mkimpl [MArg TyValueRef; MGen gA; MGen gB; MArg TyStr; MArg TyStr]
    [FTy RValueRef; FGen gA; FGen gB; FTy RStr; FTy RStr] [(gA, gA); (gB, gB)]
    ([MArg TyValueRef; MGen gA; MGen gB; MArg TyStr; MArg TyStr], [FTy RValueRef; FGen gA; FGen gB; FTy RStr; FTy RStr])
    [pv; pa; pb; pc; pd] [FTy RValueRef; FGen gA; FGen gB; FTy RStr; FTy RStr] [pv; pa; pb; pc; pd];
  (* filters/impls.rs 2263-2277 *)
  mkimpl [MArg TyValueRef; MGen gA; MArg TyStr; MGen gC; MGen gD]
    [FTy RValueRef; FGen gA; FTy RStr; FGen gC; FGen gD] [(gA, gA); (gC, gC); (gD, gD)]
    ([MArg TyValueRef; MGen gA; MArg TyStr; MGen gC; MGen gD], [FTy RValueRef; FGen gA; FTy RStr; FGen gC; FGen gD])
    [pv; pa; pb; pc; pd] [FTy RValueRef; FGen gA; FTy RStr; FGen gC; FGen gD] [pv; pa; pb; pc; pd];
  (* filters/impls.rs 2280-2294 *)
  mkimpl [MArg TyValueRef; MGen gA; MArg TyStr; MGen gC; MArg TyStr]
    [FTy RValueRef; FGen gA; FTy RStr; FGen gC; FTy RStr] [(gA, gA); (gC, gC)]
    ([MArg TyValueRef; MGen gA; MArg TyStr; MGen gC; MArg TyStr], [FTy RValueRef; FGen gA; FTy RStr; FGen gC; FTy RStr])
    [pv; pa; pb; pc; pd] [FTy RValueRef; FGen gA; FTy RStr; FGen gC; FTy RStr] [pv; pa; pb; pc; pd];
  (* filters/impls.rs 2297-2311 *)
  mkimpl [MArg TyValueRef; MGen gA; MArg TyStr; MArg TyStr; MGen gD]
    [FTy RValueRef; FGen gA; FTy RStr; FTy RStr; FGen gD] [(gA, gA); (gD, gD)]
    ([MArg TyValueRef; MGen gA; MArg TyStr; MArg TyStr; MGen gD], [FTy RValueRef; FGen gA; FTy RStr; FTy RStr; FGen gD])
    [pv; pa; pb; pc; pd] [FTy RValueRef; FGen gA; FTy RStr; FTy RStr; FGen gD] [pv; pa; pb; pc; pd];
  (* filters/impls.rs 2314-2327 *)
  mkimpl [MArg TyValueRef; MGen gA; MArg TyStr; MArg TyStr; MArg TyStr]
    [FTy RValueRef; FGen gA; FTy RStr; FTy RStr; FTy RStr] [(gA, gA)]
    ([MArg TyValueRef; MGen gA; MArg TyStr; MArg TyStr; MArg TyStr], [FTy RValueRef; FGen gA; FTy RStr; FTy RStr; FTy RStr])
    [pv; pa; pb; pc; pd] [FTy RValueRef; FGen gA; FTy RStr; FTy RStr; FTy RStr] [pv; pa; pb; pc; pd];
  (* filters/impls.rs 2330-2344 *)
  mkimpl [MArg TyValueRef; MArg TyStr; MGen gB; MGen gC; MGen gD]
    [FTy RValueRef; FTy RStr; FGen gB; FGen gC; FGen gD] [(gB, gB); (gC, gC); (gD, gD)]
    ([MArg TyValueRef; MArg TyStr; MGen gB; MGen gC; MGen gD], [FTy RValueRef; FTy RStr; FGen gB; FGen gC; FGen gD])
    [pv; pa; pb; pc; pd] [FTy RValueRef; FTy RStr; FGen gB; FGen gC; FGen gD] [pv; pa; pb; pc; pd];
  (* filters/impls.rs 2347-2361 *)
  mkimpl [MArg TyValueRef; MArg TyStr; MGen gB; MGen gC; MArg TyStr]
    [FTy RValueRef; FTy RStr; FGen gB; FGen gC; FTy RStr] [(gB, gB); (gC, gC)]
    ([MArg TyValueRef; MArg TyStr; MGen gB; MGen gC; MArg TyStr], [FTy RValueRef; FTy RStr; FGen gB; FGen gC; FTy RStr])
    [pv; pa; pb; pc; pd] [FTy RValueRef; FTy RStr; FGen gB; FGen gC; FTy RStr] [pv; pa; pb; pc; pd];
  (* filters/impls.rs 2364-2378 *)
  mkimpl [MArg TyValueRef; MArg TyStr; MGen gB; MArg TyStr; MGen gD]
    [FTy RValueRef; FTy RStr; FGen gB; FTy RStr; FGen gD] [(gB, gB); (gD, gD)]
    ([MArg TyValueRef; MArg TyStr; MGen gB; MArg TyStr; MGen gD], [FTy RValueRef; FTy RStr; FGen gB; FTy RStr; FGen gD])
    [pv; pa; pb; pc; pd] [FTy RValueRef; FTy RStr; FGen gB; FTy RStr; FGen gD] [pv; pa; pb; pc; pd];
  (* filters/impls.rs 2381-2394 *)
  mkimpl [MArg TyValueRef; MArg TyStr; MGen gB; MArg TyStr; MArg TyStr]
    [FTy RValueRef; FTy RStr; FGen gB; FTy RStr; FTy RStr] [(gB, gB)]
    ([MArg TyValueRef; MArg TyStr; MGen gB; MArg TyStr; MArg TyStr], [FTy RValueRef; FTy RStr; FGen gB; FTy RStr; FTy RStr])
    [pv; pa; pb; pc; pd] [FTy RValueRef; FTy RStr; FGen gB; FTy RStr; FTy RStr] [pv; pa; pb; pc; pd];
  (* filters/impls.rs 2397-2411 *)
  mkimpl [MArg TyValueRef; MArg TyStr; MArg TyStr; MGen gC; MGen gD]
    [FTy RValueRef; FTy RStr; FTy RStr; FGen gC; FGen gD] [(gC, gC); (gD, gD)]
    ([MArg TyValueRef; MArg TyStr; MArg TyStr; MGen gC; MGen gD], [FTy RValueRef; FTy RStr; FTy RStr; FGen gC; FGen gD])
    [pv; pa; pb; pc; pd] [FTy RValueRef; FTy RStr; FTy RStr; FGen gC; FGen gD] [pv; pa; pb; pc; pd];
  (* filters/impls.rs 2414-2427 *)
  mkimpl [MArg TyValueRef; MArg TyStr; MArg TyStr; MGen gC; MArg TyStr]
    [FTy RValueRef; FTy RStr; FTy RStr; FGen gC; FTy RStr] [(gC, gC)]
    ([MArg TyValueRef; MArg TyStr; MArg TyStr; MGen gC; MArg TyStr], [FTy RValueRef; FTy RStr; FTy RStr; FGen gC; FTy RStr])
    [pv; pa; pb; pc; pd] [FTy RValueRef; FTy RStr; FTy RStr; FGen gC; FTy RStr] [pv; pa; pb; pc; pd];
  (* filters/impls.rs 2430-2443 *)
  mkimpl [MArg TyValueRef; MArg TyStr; MArg TyStr; MArg TyStr; MGen gD]
    [FTy RValueRef; FTy RStr; FTy RStr; FTy RStr; FGen gD] [(gD, gD)]
    ([MArg TyValueRef; MArg TyStr; MArg TyStr; MArg TyStr; MGen gD], [FTy RValueRef; FTy RStr; FTy RStr; FTy RStr; FGen gD])
    [pv; pa; pb; pc; pd] [FTy RValueRef; FTy RStr; FTy RStr; FTy RStr; FGen gD] [pv; pa; pb; pc; pd];
  (* filters/impls.rs 2446-2457 *)
  mkimpl [MArg TyValueRef; MArg TyStr; MArg TyStr; MArg TyStr; MArg TyStr]
    [FTy RValueRef; FTy RStr; FTy RStr; FTy RStr; FTy RStr] []
    ([MArg TyValueRef; MArg TyStr; MArg TyStr; MArg TyStr; MArg TyStr], [FTy RValueRef; FTy RStr; FTy RStr; FTy RStr; FTy RStr])
    [pv; pa; pb; pc; pd] [FTy RValueRef; FTy RStr; FTy RStr; FTy RStr; FTy RStr] [pv; pa; pb; pc; pd]
].

(** An assignment of types to the generic parameters *)
Definition inst (s : gvar -> arg_ty) (t : mty) : arg_ty := match t with MGen g => s g | MArg t => t end.
Definition instf (s : gvar -> arg_ty) (t : fty) : rty := match t with FGen g => ROwned (s g) | FTy t => t end.

(** [FilterArgs] is implemented for tuples of one to five types: filters/mod.rs 268-362 *)
Definition is_tuple (A : list arg_ty) : Prop := 1 <= length A <= 5.

(** The trait solver: functions with parameters of the types [ps] implement
    [Filter<R, A>] by the impl [i] with generic parameters [s]. *)
Record implements (i : impl) (s : gvar -> arg_ty) (ps : list rty) (A : list arg_ty) : Prop := {
  is_impl : In i impls;
  is_fn : map (instf s) (im_fn i) = ps;
  is_head : map (inst s) (im_head i) = A;
  is_where : Forall (fun c => output (s (fst c)) = ROwned (s (snd c))) (im_where i);
  is_args : is_tuple (map (inst s) (fst (im_output i)));
  is_output : map output (map (inst s) (fst (im_output i))) = map (instf s) (snd (im_output i))
}.

Section Call.
Context `{X : Ext}.

(** The value of a variable of the pattern *)
Fixpoint bound (pat : list pvar) (args : list arg_val) (x : pvar) : arg_val :=
  match pat, args with
  | y :: pat, v :: args => if pvar_eqb x y then v else bound pat args x
  | _, _ => AvUnit (* rustc rejects unbound variables *)
  end.

(** What a filter function returns: [R: Into<Value>], or a [Result] whose error is a
    [String] or [&str] (which are the same here) *)
Inductive fret := RetValue (d : into_data) | RetResult (r : into_data + str).

(** filters/mod.rs 430-467 [FilterReturn::to_value], [FilterError::to_error] *)
Definition to_value (r : fret) : res value :=
  match r with
  | RetValue d => Ok (value_from d)
  | RetResult (inl d) => Ok (value_from d)
  | RetResult (inr m) => Err (mk_filter_error m)
  end.

(** [Filter::filter] of an impl, for the Rust function [f] *)
Definition filter_method (i : impl) (f : list arg_val -> fret) (args : list arg_val) : fret :=
  f (map (bound (im_pat i) args) (im_call i)).

(** filters/mod.rs 376-398 [get_arg]; [args[i]] panics out of range *)
Definition get_arg_at (t : arg_ty) (source : str) (st : stack) (l : list base_expr) (i : nat) : res arg_val :=
  match nth_error l i with Some a => get_arg t source st a | None => Panic end.

(** filters/mod.rs 276-277: the value *)
Definition get_value (t : arg_ty) (source : str) (name : ident) (c : cow) : res arg_val :=
  match from_cow_mut t c with inl v => Ok v | inr e => err_expected_val e source (id_span name) end.

(** filters/mod.rs 268-362 [from_state] of the five impls of [FilterArgs] *)
Definition from_state (A : list arg_ty) (source : str) (name : ident) (st : stack) (c : cow)
    (l : list base_expr) : res (list arg_val) :=
  match A with
  | [tv] => (* 268-280 *)
    let* _ := check_args 0 source name l in
    let* v := get_value tv source name c in
    Ok [v]
  | [tv; ta] => (* 282-296 *)
    let* _ := check_args 1 source name l in
    let* v := get_value tv source name c in
    let* a := get_arg_at ta source st l 0 in
    Ok [v; a]
  | [tv; ta; tb] => (* 298-314 *)
    let* _ := check_args 2 source name l in
    let* v := get_value tv source name c in
    let* a := get_arg_at ta source st l 0 in
    let* b := get_arg_at tb source st l 1 in
    Ok [v; a; b]
  | [tv; ta; tb; tc] => (* 316-334 *)
    let* _ := check_args 3 source name l in
    let* v := get_value tv source name c in
    let* a := get_arg_at ta source st l 0 in
    let* b := get_arg_at tb source st l 1 in
    let* c := get_arg_at tc source st l 2 in
    Ok [v; a; b; c]
  | [tv; ta; tb; tc; td] => (* 336-362 *)
    let* _ := check_args 4 source name l in
    let* v := get_value tv source name c in
    let* a := get_arg_at ta source st l 0 in
    let* b := get_arg_at tb source st l 1 in
    let* c := get_arg_at tc source st l 2 in
    let* d := get_arg_at td source st l 3 in
    Ok [v; a; b; c; d]
  | _ => Panic (* no impl: not a filter *)
  end.

(** filters/mod.rs 99-110 [new]: the boxed filter made of the function [f] by an impl *)
Definition new_filter (i : impl) (A : list arg_ty) (f : list arg_val -> fret)
    (source : str) (name : ident) (st : stack) (c : cow) (l : list base_expr) : res value :=
  let* args := from_state A source name st c l in
  to_value (filter_method i f args).
End Call.
