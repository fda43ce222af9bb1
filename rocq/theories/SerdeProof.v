From Verif Require Import Base Utf8 Ext Errors Value MapFacts Serde DecimalSpec DecimalProof SerdeSpec RegistryProof.

(** ** Induction on data *)
Section Ind.
Variable P : sdata -> Prop.
Hypothesis Hleaf : forall d, match d with
  | SSome _ | SNewtypeStruct _ _ | SNewtypeVariant _ _ _ | SSeq _ | STuple _ | STupleStruct _ _ | STupleVariant _ _ _
  | SMap _ | SStruct _ _ | SStructVariant _ _ _ => False | _ => True end -> P d.
Hypothesis Hsome : forall d, P d -> P (SSome d).
Hypothesis Hnew : forall n d, P d -> P (SNewtypeStruct n d).
Hypothesis Hnewv : forall n k d, P d -> P (SNewtypeVariant n k d).
Hypothesis Hseq : forall d l, seq_of d = Some l -> Forall P l -> P d.
Hypothesis Htuplev : forall n k l, Forall P l -> P (STupleVariant n k l).
Hypothesis Hmap : forall l, Forall (fun kd => P (snd kd)) l -> P (SMap l).
Hypothesis Hstruct : forall n l, Forall (fun kd => P (snd kd)) l -> P (SStruct n l).
Hypothesis Hstructv : forall n k l, Forall (fun kd => P (snd kd)) l -> P (SStructVariant n k l).
Fixpoint sdata_ind' (d : sdata) : P d.
Proof.
  assert (L : forall l, (fix go (l : list sdata) : Prop := match l with [] => True | x :: l' => P x /\ go l' end) l -> Forall P l).
  { induction l; [constructor|]. intros [H1 H2]. constructor; auto. }
  refine (let go := fix go (l : list sdata) : Forall P l := match l with [] => Forall_nil _ | x :: l' => Forall_cons x (sdata_ind' x) (go l') end in
          let go2 := fix go2 (l : list (sdata * sdata)) : Forall (fun kd => P (snd kd)) l :=
            match l with [] => Forall_nil _ | (k, x) :: l' => @Forall_cons _ (fun kd => P (snd kd)) (k, x) l' (sdata_ind' x) (go2 l') end in
          let go3 := fix go3 (l : list (str * sdata)) : Forall (fun kd => P (snd kd)) l :=
            match l with [] => Forall_nil _ | (k, x) :: l' => @Forall_cons _ (fun kd => P (snd kd)) (k, x) l' (sdata_ind' x) (go3 l') end in _).
  clear L.
  destruct d as [m|b|z|z|z|z|z|z|z|z|z|z|f|f|c|s|bs| |d| |n|n v|n d|n v d|l|l|n l|n v l|l|n l|n v l];
    try (apply Hleaf; exact I).
  - apply Hsome, sdata_ind'.
  - apply Hnew, sdata_ind'.
  - apply Hnewv, sdata_ind'.
  - exact (Hseq (SSeq l) l eq_refl (go l)).
  - exact (Hseq (STuple l) l eq_refl (go l)).
  - exact (Hseq (STupleStruct n l) l eq_refl (go l)).
  - exact (Htuplev n v l (go l)).
  - exact (Hmap l (go2 l)).
  - exact (Hstruct n l (go3 l)).
  - exact (Hstructv n v l (go3 l)).
Defined.
End Ind.

(** ** The loops of [to_value], named *)
Fixpoint list_values (l : list sdata) : res (list value) :=
  match l with [] => Ok [] | d :: l' => let* v := to_value d in let* vs := list_values l' in Ok (v :: vs) end.
Fixpoint field_values (l : list (str * sdata)) (m : list (str * value)) : res (list (str * value)) :=
  match l with [] => Ok m | (k, d) :: l' => let* v := to_value d in field_values l' (map_insert k v m) end.
Fixpoint entry_values (l : list (sdata * sdata)) (m : list (str * value)) : res (list (str * value)) :=
  match l with [] => Ok m | (k, d) :: l' => let* k := serialize_key k in let* v := to_value d in entry_values l' (map_insert k v m) end.
Lemma tv_seq l d : seq_of d = Some l -> to_value d = (let* vs := list_values l in Ok (VList vs)).
Proof. destruct d; cbn [seq_of]; intros E; try discriminate; injection E as ->; reflexivity. Qed.
Lemma tv_tuplev n k l : to_value (STupleVariant n k l) = (let* vs := list_values l in Ok (one k (VList vs))).
Proof. reflexivity. Qed.
Lemma tv_map l : to_value (SMap l) = (let* m := entry_values l [] in Ok (VMap m)).
Proof. reflexivity. Qed.
Lemma tv_struct n l : to_value (SStruct n l) = (let* m := field_values l [] in Ok (VMap m)).
Proof. reflexivity. Qed.
Lemma tv_structv n k l : to_value (SStructVariant n k l) = (let* m := field_values l [] in Ok (one k (VMap m))).
Proof. reflexivity. Qed.

(** ** Keys *)
Definition result {A} (r : A + str) : res A := match r with inl a => Ok a | inr m => Err (mk_ser_error m) end.
Lemma key_result d r : key d r -> serialize_key d = result r.
Proof.
  induction 1 as [s|c|d z s Hi Hd|n v|n d r H IH|m|z|z|d Hd]; try reflexivity; cbn [serialize_key]; auto.
  - apply decimal_show in Hd as ->. destruct Hi; reflexivity.
  - destruct d; try destruct Hd; reflexivity.
Qed.
Lemma key_total d : exists r, key d r.
Proof.
  assert (N : forall d z, integer d z -> exists r, key d r).
  { intros d0 z H. eexists. apply (ke_int d0 z (show_Z z)); [exact H|]. now apply decimal_show. }
  induction d; try (eexists; apply ke_other; exact I); try (eapply N; constructor); try (eexists; constructor; fail).
  destruct IHd as (r & H). exists r. now constructor.
Qed.
Lemma key_utf8 d k : machine d -> key d (inl k) -> valid_utf8 k.
Proof.
  intros Hm H. remember (inl k) as r eqn:E. revert k E Hm. induction H as [s|c|d z s Hi Hd|n v|n d r H IH|m|z|z|d Hd]; intros k E Hm; try discriminate E; try (injection E as <-); cbn [machine] in Hm; auto.
  - replace (encode c) with (flat_map encode [c]) by (cbn; apply app_nil_r). exists [c]. split; [constructor; auto|reflexivity].
  - unfold decimal in Hd. assert (D : forall n t, natural n t -> asciib t = true).
    { intros n t (_ & Ht & _). unfold asciib. apply forallb_forall. intros b Hb. rewrite Forall_forall in Ht. destruct (Ht b Hb). apply N.ltb_lt. lia. }
    apply asciib_valid. destruct (0 <=? z)%Z; [now apply (D _ _ Hd)|]. destruct Hd as (t & -> & Hd). exact (D _ _ Hd).
Qed.

(** ** Maps *)
Lemma last_entry_app {V} k (a b : list (str * V)) : last_entry k (a ++ b) = match last_entry k b with Some v => Some v | None => last_entry k a end.
Proof.
  induction a as [|[k' v] a IH]; cbn [app last_entry]; [now destruct (last_entry k b)|]. rewrite IH. now destruct (last_entry k b).
Qed.
Lemma map_with_fun {V} (l m m' : list (str * V)) : map_with l m -> map_with l m' -> m = m'.
Proof. intros (H1 & H2) (H1' & H2'). apply sorted_ext; auto. intros k. congruence. Qed.
Lemma map_with_insert {V} (l m : list (str * V)) k v : map_with l m -> map_with (l ++ [(k, v)]) (map_insert k v m).
Proof.
  intros (H1 & H2). split; [now apply sorted_keys_insert|]. intros k'. rewrite last_entry_app. cbn [last_entry].
  destruct (str_eqb k' k) eqn:E.
  - apply str_eqb_eq in E as ->. apply map_get_insert_same.
  - rewrite map_get_insert_other; [apply H2|]. intros ->. now rewrite str_eqb_refl in E.
Qed.
Lemma map_with_nil {V} : map_with (V := V) [] [].
Proof. split; [exact I|reflexivity]. Qed.
Lemma map_of_list_with {V} (l : list (str * V)) : map_with l (map_of_list l).
Proof.
  unfold map_of_list. rewrite <- (app_nil_l l) at 1. generalize (map_with_nil (V := V)). generalize (@nil (str * V)) at 1 3. generalize (@nil (str * V)).
  induction l as [|[k v] l IH]; intros m a H; cbn [fold_left]; [now rewrite app_nil_r|].
  change ((k, v) :: l) with ([(k, v)] ++ l). rewrite app_assoc. apply IH. cbn [fst snd]. now apply map_with_insert.
Qed.
Lemma last_entry_sorted {V} (m : list (str * V)) : sorted_keys m -> forall k, last_entry k m = map_get k m.
Proof.
  induction m as [|[k' v] m IH]; intros H k; cbn [last_entry map_get]; [reflexivity|]. rewrite (IH (sorted_tail _ _ H)).
  destruct (str_eqb k k') eqn:E.
  - apply str_eqb_eq in E as ->. now rewrite (sorted_get_none _ _ _ H).
  - now destruct (map_get k m).
Qed.
Lemma map_with_sorted {V} (m : list (str * V)) : sorted_keys m -> map_with m m.
Proof. intros H. split; auto. intros k. symmetry. now apply last_entry_sorted. Qed.
Lemma map_with_In {V} (l m : list (str * V)) x : map_with l m -> In x m -> In x l.
Proof.
  intros (H1 & H2) Hi. destruct x as [k v].
  assert (E : last_entry k l = Some v).
  { rewrite <- H2. clear - H1 Hi. induction m as [|[k' v'] m IH]; [destruct Hi|]. cbn [map_get]. destruct Hi as [E|Hi].
    - injection E as -> ->. now rewrite str_eqb_refl.
    - pose proof (sorted_lt _ _ _ H1 _ _ Hi) as L. destruct (str_eqb k k') eqn:E; [|apply IH; [now apply sorted_tail in H1|exact Hi]].
      apply str_eqb_eq in E as ->. rewrite str_cmp_refl in L. discriminate L. }
  clear - E. induction l as [|[k' v'] l IH]; cbn [last_entry] in E; [discriminate|]. destruct (last_entry k l) as [w|].
  - injection E as ->. right. now apply IH.
  - destruct (str_eqb k k') eqn:K; [|discriminate]. apply str_eqb_eq in K as ->. injection E as ->. now left.
Qed.
Lemma all_Forall {A} (P : A -> Prop) l : all P l <-> Forall P l.
Proof. induction l; cbn; split; intros H; auto; [constructor; tauto|inversion H; tauto]. Qed.

(** ** [converts] *)
Lemma integer_value d z : integer d z -> (z <= i64_max)%Z -> to_value d = Ok (VInt z).
Proof. intros H Hz. destruct H; try reflexivity. cbn [to_value]. apply Z.leb_le in Hz. now rewrite Hz. Qed.

Definition good (d : sdata) : Prop := machine d -> (exists r, converts d r) /\ forall r, converts d r -> to_value d = result r.
Definition field_result (a : list (str * value)) (r : list (str * value) + str) (x : res (list (str * value))) : Prop :=
  match r with inl es => exists m, map_with (a ++ es) m /\ x = Ok m | inr e => x = Err (mk_ser_error e) end.
Lemma good_list l : Forall good l -> all machine l -> (exists r, converts_all l r) /\ forall r, converts_all l r -> list_values l = result r.
Proof.
  induction 1 as [|d l Hd Hl IH]; intros Hm.
  - split; [eexists; constructor|]. intros r H. inversion H; subst. reflexivity.
  - destruct Hm as (Hm1 & Hm2). destruct (Hd Hm1) as ((r1 & H1) & S1), (IH Hm2) as ((r2 & H2) & S2). split.
    + destruct r1 as [v|m]; [|exists (inr m); now constructor]. destruct r2 as [vs|m]; [exists (inl (v :: vs)); now constructor|exists (inr m); eapply ca_later; eauto].
    + intros r H. cbn [list_values]. inversion H as [|? ? v vs A B|? ? m A|? ? v m A B]; subst; rewrite (S1 _ A); cbn [result bind]; auto; rewrite (S2 _ B); reflexivity.
Qed.
Lemma good_fields l : Forall (fun kd => good (snd kd)) l -> all (fun kd => valid_utf8 (fst kd) /\ machine (snd kd)) l ->
  (exists r, converts_fields l r) /\ forall r, converts_fields l r -> forall a m, map_with a m -> field_result a r (field_values l m).
Proof.
  induction 1 as [|[k d] l Hd Hl IH]; intros Hm.
  - split; [eexists; constructor|]. intros r H a m Ha. inversion H; subst. cbn. rewrite app_nil_r. eauto.
  - destruct Hm as ((_ & Hm1) & Hm2). cbn [snd] in *. destruct (Hd Hm1) as ((r1 & H1) & S1), (IH Hm2) as ((r2 & H2) & S2). split.
    + destruct r1 as [v|m]; [|exists (inr m); now constructor]. destruct r2 as [vs|m]; [exists (inl ((k, v) :: vs)); now constructor|exists (inr m); eapply cf_later; eauto].
    + intros r H a m Ha. cbn [field_values]. inversion H as [|? ? ? v vs A B|? ? ? e A|? ? ? v e A B]; subst; rewrite (S1 _ A); cbn [result bind field_result]; auto.
      * specialize (S2 _ B (a ++ [(k, v)]) (map_insert k v m) (map_with_insert _ _ _ _ Ha)). cbn [field_result] in S2. rewrite <- app_assoc in S2. exact S2.
      * exact (S2 _ B _ _ (map_with_insert _ _ k v Ha)).
Qed.
Lemma good_entries l : Forall (fun kd => good (snd kd)) l -> all (fun kd => machine (fst kd) /\ machine (snd kd)) l ->
  (exists r, converts_entries l r) /\ forall r, converts_entries l r -> forall a m, map_with a m -> field_result a r (entry_values l m).
Proof.
  induction 1 as [|[k d] l Hd Hl IH]; intros Hm.
  - split; [eexists; constructor|]. intros r H a m Ha. inversion H; subst. cbn. rewrite app_nil_r. eauto.
  - destruct Hm as ((_ & Hm1) & Hm2). cbn [snd] in *. destruct (Hd Hm1) as ((r1 & H1) & S1), (IH Hm2) as ((r2 & H2) & S2). split.
    + destruct (key_total k) as ([k'|m] & Hk); [|exists (inr m); now constructor].
      destruct r1 as [v|m]; [|exists (inr m); eapply ce_value; eauto]. destruct r2 as [vs|m]; [exists (inl ((k', v) :: vs)); now constructor|exists (inr m); eapply ce_later; eauto].
    + intros r H a m Ha. cbn [entry_values]. inversion H as [|? ? ? k' v vs K A B|? ? ? e K|? ? ? k' e K A|? ? ? k' v e K A B]; subst; rewrite (key_result _ _ K); cbn [result bind field_result]; auto;
        rewrite (S1 _ A); cbn [result bind field_result]; auto.
      * specialize (S2 _ B (a ++ [(k', v)]) (map_insert k' v m) (map_with_insert _ _ _ _ Ha)). cbn [field_result] in S2. rewrite <- app_assoc in S2. exact S2.
      * exact (S2 _ B _ _ (map_with_insert _ _ k' v Ha)).
Qed.
Lemma seq_machine d l : seq_of d = Some l -> machine d = all machine l.
Proof. destruct d; cbn [seq_of]; intros E; try discriminate; injection E as ->; reflexivity. Qed.
Lemma in_64 z : signed 64 z -> (i64_min <= z <= i64_max)%Z.
Proof. unfold signed, i64_min, i64_max. cbn. lia. Qed.
Lemma integer_cases d z : integer d z -> machine d -> (z <= i64_max)%Z \/ (d = SU64 z /\ (i64_max < z)%Z).
Proof.
  intros H. assert (B : forall n, (0 <= n < 63)%Z -> (2 ^ n <= i64_max)%Z).
  { intros n Hn. unfold i64_max. assert (2 ^ n <= 2 ^ 62)%Z by (apply Z.pow_le_mono_r; lia). lia. }
  destruct H; cbn [machine]; unfold signed, unsigned; intros M;
  first [left; unfold i64_max; cbn in M |- *; lia | destruct (Z.le_gt_cases z i64_max); [left; assumption|right; split; [reflexivity|lia]]].
Qed.
Lemma bytes_list bs : Forall2 (fun b v => v = VInt (Z.of_N (byte_N b))) bs (map (fun b => VInt (Z.of_N (byte_N b))) bs).
Proof. induction bs; cbn; constructor; auto. Qed.
Lemma bytes_list_fun bs l : Forall2 (fun b v => v = VInt (Z.of_N (byte_N b))) bs l -> l = map (fun b => VInt (Z.of_N (byte_N b))) bs.
Proof. induction 1; cbn; congruence. Qed.
Theorem all_good d : good d.
Proof.
  induction d as [d Hl|d IH|n d IH|n k d IH|d l E IH|n k l IH|l IH|n l IH|n k l IH] using sdata_ind'; intros Hm.
  - assert (I : forall z, integer d z -> (exists r, converts d r) /\ forall r, converts d r -> to_value d = result r).
    { intros z Hi. destruct (integer_cases d z Hi Hm) as [Hz|(-> & Hz)].
      - split; [eexists; now apply (co_int d z)|]. intros r H. rewrite (integer_value d z Hi Hz).
        destruct Hi; inversion H; subst; try discriminate; try lia; match goal with K : integer _ _ |- _ => inversion K; subst end; reflexivity.
      - split; [eexists; now apply co_too_big|]. intros r H. cbn [to_value]. destruct (Z.leb_spec z i64_max); [lia|].
        inversion H; subst; try discriminate; [match goal with K : integer _ _ |- _ => inversion K; subst end; lia|reflexivity]. }
    destruct d; try destruct Hl; try (eapply I; constructor; fail);
    (split; [eexists; try (constructor; fail)|intros r H; inversion H; subst; try discriminate; try (match goal with K : integer _ _ |- _ => inversion K end); reflexivity || idtac]).
    + apply co_bytes, bytes_list.
    + cbn [to_value result]. match goal with K : Forall2 _ _ _ |- _ => apply bytes_list_fun in K as -> end. reflexivity.
  - destruct (IH Hm) as ((r & H) & H2). split; [exists r; now constructor|]. intros r' H'. inversion H' as [? ? K| | | | | | | | | | | | |d0 r0 K| | | | | | | | | | | | | | |]; subst; try discriminate; [inversion K|now apply H2].
  - destruct (IH Hm) as ((r & H) & H2). split; [exists r; now constructor|]. intros r' H'. inversion H' as [? ? K| | | | | | | | | | | | | |n0 d0 r0 K| | | | | | | | | | | | | |]; subst; try discriminate; [inversion K|now apply H2].
  - destruct Hm as (Hk & Hm). destruct (IH Hm) as ((r & H) & H2). split.
    + destruct r as [v|m]; [exists (inl (one k v)); now constructor|exists (inr m); now constructor].
    + intros r' H'. inversion H' as [? ? K| | | | | | | | | | | | | | | |n0 k0 d0 v K|n0 k0 d0 m K| | | | | | | | | | |]; subst; try discriminate; [inversion K|..]; cbn [to_value]; rewrite (H2 _ K); reflexivity.
  - rewrite (seq_machine d l E) in Hm. destruct (good_list l IH Hm) as ((r & H) & H2). rewrite (tv_seq l d E). split.
    + destruct r as [vs|m]; [exists (inl (VList vs)); eapply co_seq; eauto|exists (inr m); eapply co_seq_fails; eauto].
    + intros r' H'. assert (G : exists s, converts_all l s /\ r' = match s with inl vs => inl (VList vs) | inr m => inr m end).
      { destruct d; cbn [seq_of] in E; try discriminate; injection E as ->; inversion H' as [? ? K| | | | | | | | | | | | | | | | | |d0 l0 vs E0 K|d0 l0 m E0 K| | | | | | | | |]; subst;
        try (inversion K; fail); cbn [seq_of] in E0; injection E0 as <-; eexists; split; try exact K; reflexivity. }
      destruct G as (s & Hs & ->). rewrite (H2 _ Hs). now destruct s.
  - destruct Hm as (Hk & Hm). destruct (good_list l IH Hm) as ((r & H) & H2). rewrite tv_tuplev. split.
    + destruct r as [vs|m]; [exists (inl (one k (VList vs))); now constructor|exists (inr m); now constructor].
    + intros r' H'. inversion H' as [? ? K| | | | | | | | | | | | | | | | | |d0 l0 vs E0 K|d0 l0 m E0 K|n0 k0 l0 vs K|n0 k0 l0 m K| | | | | | |]; subst; try discriminate; [inversion K|..]; rewrite (H2 _ K); reflexivity.
  - destruct (good_entries l IH Hm) as ((r & H) & H2). rewrite tv_map. split.
    + pose proof (H2 r H [] [] map_with_nil) as K. destruct r as [es|m]; [destruct K as (mm & K & _); exists (inl (VMap mm)); eapply co_map; eauto|exists (inr m); now constructor].
    + intros r' H'. inversion H' as [? ? K| | | | | | | | | | | | | | | | | |d0 l0 vs E0 K|d0 l0 m E0 K| | |l0 es m K W|l0 m K| | | | |]; subst; try discriminate; [inversion K|..]; pose proof (H2 _ K [] [] map_with_nil) as Z0; cbn [field_result app] in Z0.
      * destruct Z0 as (mm & W' & ->). rewrite (map_with_fun _ _ _ W W'). reflexivity.
      * now rewrite Z0.
  - destruct (good_fields l IH Hm) as ((r & H) & H2). rewrite tv_struct. split.
    + pose proof (H2 r H [] [] map_with_nil) as K. destruct r as [es|m]; [destruct K as (mm & K & _); exists (inl (VMap mm)); eapply co_struct; eauto|exists (inr m); now constructor].
    + intros r' H'. inversion H' as [? ? K| | | | | | | | | | | | | | | | | |d0 l0 vs E0 K|d0 l0 m E0 K| | | | |n0 l0 es m K W|n0 l0 m K| | |]; subst; try discriminate; [inversion K|..]; pose proof (H2 _ K [] [] map_with_nil) as Z0; cbn [field_result app] in Z0.
      * destruct Z0 as (mm & W' & ->). rewrite (map_with_fun _ _ _ W W'). reflexivity.
      * now rewrite Z0.
  - destruct Hm as (Hk & Hm). destruct (good_fields l IH Hm) as ((r & H) & H2). rewrite tv_structv. split.
    + pose proof (H2 r H [] [] map_with_nil) as K. destruct r as [es|m]; [destruct K as (mm & K & _); exists (inl (one k (VMap mm))); eapply co_struct_variant; eauto|exists (inr m); now constructor].
    + intros r' H'. inversion H' as [? ? K| | | | | | | | | | | | | | | | | |d0 l0 vs E0 K|d0 l0 m E0 K| | | | | | |n0 k0 l0 es m K W|n0 k0 l0 m K|]; subst; try discriminate; [inversion K|..]; pose proof (H2 _ K [] [] map_with_nil) as Z0; cbn [field_result app] in Z0.
      * destruct Z0 as (mm & W' & ->). rewrite (map_with_fun _ _ _ W W'). reflexivity.
      * now rewrite Z0.
Qed.

(** ** Values of data are proper *)
Definition sound (d : sdata) : Prop := machine d -> forall v, to_value d = Ok v -> proper v.
Lemma sound_list l : Forall sound l -> all machine l -> forall vs, list_values l = Ok vs -> all proper vs.
Proof.
  induction 1 as [|d l Hd Hl IH]; intros Hm vs E; cbn [list_values] in E.
  - injection E as <-. exact I.
  - destruct Hm as (M1 & M2). destruct (to_value d) as [v| | |] eqn:E1; cbn [bind] in E; try discriminate.
    destruct (list_values l) as [vs'| | |]; cbn [bind] in E; try discriminate. injection E as <-. split; [now apply (Hd M1)|now apply IH].
Qed.
Definition proper_map (m : list (str * value)) : Prop := sorted_keys m /\ all (fun kv => valid_utf8 (fst kv) /\ proper (snd kv)) m.
Lemma proper_insert k v m : valid_utf8 k -> proper v -> proper_map m -> proper_map (map_insert k v m).
Proof.
  intros Hk Hv (H1 & H2). split; [now apply sorted_keys_insert|]. apply all_Forall. apply all_Forall in H2. rewrite Forall_forall in H2 |- *.
  intros x Hi. apply In_map_insert in Hi as [->|Hi]; auto.
Qed.
Lemma sound_fields l : Forall (fun kd => sound (snd kd)) l -> all (fun kd => valid_utf8 (fst kd) /\ machine (snd kd)) l ->
  forall m m', proper_map m -> field_values l m = Ok m' -> proper_map m'.
Proof.
  induction 1 as [|[k d] l Hd Hl IH]; intros Hm m m' Hp E; cbn [field_values] in E.
  - now injection E as <-.
  - destruct Hm as ((K & M1) & M2). cbn [fst snd] in *. destruct (to_value d) as [v| | |] eqn:E1; cbn [bind] in E; try discriminate.
    apply (IH M2 _ _ (proper_insert k v m K (Hd M1 v E1) Hp) E).
Qed.
Lemma sound_entries l : Forall (fun kd => sound (snd kd)) l -> all (fun kd => machine (fst kd) /\ machine (snd kd)) l ->
  forall m m', proper_map m -> entry_values l m = Ok m' -> proper_map m'.
Proof.
  induction 1 as [|[k d] l Hd Hl IH]; intros Hm m m' Hp E; cbn [entry_values] in E.
  - now injection E as <-.
  - destruct Hm as ((K & M1) & M2). cbn [fst snd] in *. destruct (key_total k) as (r & Hk). pose proof (key_result _ _ Hk) as Ek. rewrite Ek in E.
    destruct r as [k'|]; cbn [result bind] in E; [|discriminate]. pose proof (key_utf8 _ _ K Hk) as U.
    destruct (to_value d) as [v| | |] eqn:E1; cbn [bind] in E; try discriminate.
    apply (IH M2 _ _ (proper_insert k' v m U (Hd M1 v E1) Hp) E).
Qed.
Lemma proper_nil : proper_map [].
Proof. split; exact I. Qed.
Theorem all_sound d : sound d.
Proof.
  induction d as [d Hl|d IH|n d IH|n k d IH|d l E IH|n k l IH|l IH|n l IH|n k l IH] using sdata_ind'; intros Hm v E1; auto.
  - assert (B : (2 ^ 63 = 9223372036854775808)%Z) by reflexivity.
    destruct d; try destruct Hl; cbn [to_value] in E1; try discriminate E1; cbn [machine] in Hm; unfold signed, unsigned in Hm;
    try (destruct (Z.leb_spec z i64_max); try discriminate E1); injection E1 as <-; cbn [proper]; auto;
    try (unfold i64_min, i64_max in *; cbn in Hm |- *; lia).
    + exists [c]. split; [constructor; auto|]. cbn. now rewrite app_nil_r.
    + induction bs as [|b bs IH]; cbn [map all]; [exact I|]. split; [|exact IH]. cbn [proper]. pose proof (Byte.to_N_bounded b).
      unfold i64_min, i64_max, byte_N. lia.
  - destruct Hm as (Hk & Hm). cbn [to_value] in E1. destruct (to_value d) as [w| | |] eqn:Ew; cbn [bind] in E1; try discriminate. injection E1 as <-.
    exact (proper_insert k w [] Hk (IH Hm w Ew) proper_nil).
  - rewrite (tv_seq l d E) in E1. rewrite (seq_machine d l E) in Hm. destruct (list_values l) as [vs| | |] eqn:El; cbn [bind] in E1; try discriminate. injection E1 as <-.
    exact (sound_list l IH Hm vs El).
  - rewrite tv_tuplev in E1. destruct Hm as (Hk & Hm). destruct (list_values l) as [vs| | |] eqn:El; cbn [bind] in E1; try discriminate. injection E1 as <-.
    exact (proper_insert k (VList vs) [] Hk (sound_list l IH Hm vs El) proper_nil).
  - rewrite tv_map in E1. destruct (entry_values l []) as [m| | |] eqn:El; cbn [bind] in E1; try discriminate. injection E1 as <-.
    exact (sound_entries l IH Hm [] m proper_nil El).
  - rewrite tv_struct in E1. destruct (field_values l []) as [m| | |] eqn:El; cbn [bind] in E1; try discriminate. injection E1 as <-.
    exact (sound_fields l IH Hm [] m proper_nil El).
  - rewrite tv_structv in E1. destruct Hm as (Hk & Hm). destruct (field_values l []) as [m| | |] eqn:El; cbn [bind] in E1; try discriminate. injection E1 as <-.
    exact (proper_insert k (VMap m) [] Hk (sound_fields l IH Hm [] m proper_nil El) proper_nil).
Qed.

(** ** Values and [From] *)
Lemma entries_map (f : value -> sdata) (g : value -> value) l : Forall (fun kv => to_value (f (snd kv)) = Ok (g (snd kv))) l ->
  forall m, entry_values (map (fun kv => (SStr (fst kv), f (snd kv))) l) m =
    Ok (fold_left (fun m kv => map_insert (fst kv) (snd kv) m) (map (fun kv => (fst kv, g (snd kv))) l) m).
Proof. induction 1 as [|[k v] l Hv Hl IH]; intros m; cbn [map entry_values fold_left fst snd serialize_key bind]; [reflexivity|]. cbn [snd] in Hv. rewrite Hv. apply IH. Qed.
Lemma map_of_sorted {V} (m : list (str * V)) : sorted_keys m -> map_of_list m = m.
Proof. intros H. eapply map_with_fun; [apply map_of_list_with|now apply map_with_sorted]. Qed.
Theorem value_round v : proper v -> to_value (value_serialize v) = Ok v.
Proof.
  induction v as [| | | | |l IH|m IH] using value_ind'; intros Hp; try reflexivity.
  - cbn [value_serialize]. rewrite (tv_seq (map value_serialize l) (SSeq (map value_serialize l)) eq_refl). cbn [proper] in Hp.
    assert (E : list_values (map value_serialize l) = Ok l).
    { induction IH as [|v l Hv Hl IHl]; [reflexivity|]. destruct Hp as (P1 & P2). cbn [map list_values]. rewrite (Hv P1). cbn [bind]. rewrite (IHl P2). reflexivity. }
    now rewrite E.
  - cbn [value_serialize]. rewrite tv_map. destruct Hp as (Hs & Hp). apply all_Forall in Hp.
    rewrite (entries_map value_serialize (fun v => v)).
    + cbn [bind]. f_equal. f_equal. change (map_of_list (map (fun kv : str * value => (fst kv, snd kv)) m) = m).
      replace (map (fun kv : str * value => (fst kv, snd kv)) m) with m; [now apply map_of_sorted|]. clear. induction m as [|[k v] m IH]; cbn; congruence.
    + clear Hs. induction IH as [|kv m Hv Hm IHm]; constructor; inversion Hp; subst; tauto || auto.
Qed.
Section IntoInd.
Variable P : into_data -> Prop.
Hypothesis Hleaf : forall d, match d with IVec _ | IPairs _ | ISome _ => False | _ => True end -> P d.
Hypothesis Hvec : forall l, Forall P l -> P (IVec l).
Hypothesis Hpairs : forall l, Forall (fun kd => P (snd kd)) l -> P (IPairs l).
Hypothesis Hsome : forall d, P d -> P (ISome d).
Fixpoint into_ind' (d : into_data) : P d :=
  match d as d return P d with
  | IVec l => Hvec l ((fix go l : Forall P l := match l with [] => Forall_nil _ | x :: l' => Forall_cons x (into_ind' x) (go l') end) l)
  | IPairs l => Hpairs l ((fix go (l : list (str * into_data)) : Forall (fun kd => P (snd kd)) l :=
      match l with [] => Forall_nil _ | (k, x) :: l' => @Forall_cons _ (fun kd => P (snd kd)) (k, x) l' (into_ind' x) (go l') end) l)
  | ISome d => Hsome d (into_ind' d)
  | d => Hleaf d ltac:(exact I)
  end.
End IntoInd.
Theorem from_agrees d : proper_data d -> to_value (into_serialize d) = Ok (value_from d).
Proof.
  induction d as [d Hl|l IH|l IH|d IH] using into_ind'; intros Hp.
  - destruct d; try destruct Hl; try reflexivity. now apply value_round.
  - cbn [into_serialize value_from]. rewrite (tv_seq (map into_serialize l) (SSeq (map into_serialize l)) eq_refl).
    assert (E : list_values (map into_serialize l) = Ok (map value_from l)).
    { cbn [proper_data] in Hp. induction IH as [|v l Hv Hl IHl]; [reflexivity|]. destruct Hp as (P1 & P2). cbn [map list_values]. rewrite (Hv P1). cbn [bind]. rewrite (IHl P2). reflexivity. }
    now rewrite E.
  - cbn [into_serialize value_from]. rewrite tv_map.
    assert (E : forall m, entry_values (map (fun kv => (SStr (fst kv), into_serialize (snd kv))) l) m =
      Ok (fold_left (fun m kv => map_insert (fst kv) (snd kv) m) (map (fun kv => (fst kv, value_from (snd kv))) l) m)).
    { cbn [proper_data] in Hp. induction IH as [|[k d] l Hd Hl IHl]; intros m; cbn [map entry_values fold_left fst snd serialize_key bind]; [reflexivity|].
      destruct Hp as (P1 & P2). cbn [snd] in *. rewrite (Hd P1). cbn [bind]. now apply IHl. }
    rewrite E. reflexivity.
  - exact (IH Hp).
Qed.
