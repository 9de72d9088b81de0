(** * Proofs about Derive.v. *)
From Coq Require Import String Permutation.
From Verif Require Import Base BaseFacts Varint VarintFacts Serde Typing PrimFacts SerdeFacts MapFacts Big BigFacts Time TimeFacts
  Header HeaderFacts SpecHeader Body SpecBody BodyFacts Derive SpecDerive.
Local Open Scope list_scope.
Local Open Scope N_scope.

Section RtyInd.
  Variable P : rty -> Prop.
  Hypothesis Hleaf : forall l, P (RLeaf l).
  Hypothesis Hopt : forall t, P t -> P (ROption t).
  Hypothesis Hvec : forall t, P t -> P (RVec t).
  Hypothesis Hbt : forall t, P t -> P (RBTreeMap t).
  Hypothesis Hhm : forall t, P t -> P (RHashMap t).
  Hypothesis Htup : forall ts, Forall P ts -> P (RTuple ts).
  Hypothesis Hstr : forall k fs, Forall (fun f => P (snd (snd f))) fs -> P (RStruct k fs).
  Hypothesis Henum : forall vs, Forall (fun v => Forall (fun f => P (snd (snd f))) (snd (snd v))) vs -> P (REnum vs).
  Hypothesis Hunion : P RUnion.
  Hypothesis Hitem : forall i, P (RItem i).
  Fixpoint rty_ind2 (t : rty) : P t :=
    let lst := fix lst (l : list rty) : Forall P l :=
      match l with [] => Forall_nil _ | x :: t => Forall_cons _ (rty_ind2 x) (lst t) end in
    let lstf := fix lstf (l : list (attrs * (string * rty))) : Forall (fun f => P (snd (snd f))) l :=
      match l with [] => Forall_nil _ | x :: t => Forall_cons _ (rty_ind2 (snd (snd x))) (lstf t) end in
    let lstv := fix lstv (l : list (attrs * (style * list (attrs * (string * rty))))) :
        Forall (fun v => Forall (fun f => P (snd (snd f))) (snd (snd v))) l :=
      match l with [] => Forall_nil _ | x :: t => Forall_cons _ (lstf (snd (snd x))) (lstv t) end in
    match t with
    | RLeaf l => Hleaf l
    | ROption t => Hopt t (rty_ind2 t)
    | RVec t => Hvec t (rty_ind2 t)
    | RBTreeMap t => Hbt t (rty_ind2 t)
    | RHashMap t => Hhm t (rty_ind2 t)
    | RTuple ts => Htup ts (lst ts)
    | RStruct k fs => Hstr k fs (lstf fs)
    | REnum vs => Henum vs (lstv vs)
    | RUnion => Hunion
    | RItem i => Hitem i
    end.
End RtyInd.

(** ** Attributes *)
Lemma is_ident_iff s o : is_ident s o = true <-> o = Some s.
Proof.
  destruct o as [x|]; cbn [is_ident]; [|split; discriminate]. rewrite String.eqb_eq. split; [intros ->; reflexivity|congruence].
Qed.
Lemma has_meta_iff (f : option string -> bool) name (l : attrs) : (forall o, f o = true <-> o = Some name) ->
  existsb (fun a => is_ident "serde" (attr_path a) &&
    match attr_list a with
    | Some ns => existsb (fun n => match n with NMeta i => f i | NLit => false end) ns
    | None => false
    end) l = true <-> serde_attr name l.
Proof.
  intros Hf. rewrite existsb_exists. unfold serde_attr. split.
  - intros (a & Ha & H). apply andb_prop in H as [H1 H2]. apply is_ident_iff in H1.
    destruct (attr_list a) as [ns|] eqn:E; [|discriminate]. apply existsb_exists in H2 as (n & Hn & H2).
    destruct n as [|i]; [discriminate|]. apply Hf in H2; subst i. exists a, ns; auto.
  - intros (a & ns & Ha & H1 & H2 & H3). exists a; split; [exact Ha|]. rewrite H2.
    apply andb_true_intro; split; [apply is_ident_iff, H1|]. apply existsb_exists. exists (NMeta (Some name)). split; [exact H3|].
    apply Hf; reflexivity.
Qed.
Lemma existsb_orb {A} (f g : A -> bool) l : existsb (fun a => f a || g a) l = existsb f l || existsb g l.
Proof. induction l as [|a l IH]; [reflexivity|]. cbn [existsb]. rewrite IH. destruct (f a), (g a), (existsb f l); reflexivity. Qed.
Lemma existsb_ext_in {A} (f g : A -> bool) l : (forall a, f a = g a) -> existsb f l = existsb g l.
Proof. intros H; induction l as [|a l IH]; [reflexivity|]. cbn [existsb]. rewrite H, IH; reflexivity. Qed.
Lemma skip_iff l : is_skip_field l = true <-> skipped l.
Proof.
  unfold skipped. rewrite <- (has_meta_iff (is_ident "skip") "skip") by apply is_ident_iff.
  rewrite <- (has_meta_iff (is_ident "skip_serializing") "skip_serializing") by apply is_ident_iff.
  rewrite <- orb_true_iff, <- existsb_orb. unfold is_skip_field.
  match goal with |- ?x = true <-> ?y = true => enough (x = y) as -> by reflexivity end.
  apply existsb_ext_in. intros a. rewrite <- andb_orb_distrib_r. f_equal. destruct (attr_list a) as [ns|]; [|reflexivity].
  rewrite <- existsb_orb. apply existsb_ext_in. intros [|i]; reflexivity.
Qed.
Lemma skip_if_iff l : has_skip_serializing_if l = true <-> skipped_if l.
Proof. apply (has_meta_iff (is_ident "skip_serializing_if") "skip_serializing_if"), is_ident_iff. Qed.
Lemma serde_skips_eq l : serde_skips l = is_skip_field l.
Proof.
  apply existsb_ext_in. intros a. unfold is_ident. destruct (attr_path a) as [p|], (attr_list a) as [ns|]; try reflexivity; try (rewrite andb_false_r; reflexivity).
  all: f_equal; apply existsb_ext_in; intros [|[i|]]; reflexivity.
Qed.
Lemma serde_skips_if_eq l : serde_skips_if l = has_skip_serializing_if l.
Proof.
  apply existsb_ext_in. intros a. unfold is_ident. destruct (attr_path a) as [p|], (attr_list a) as [ns|]; try reflexivity; try (rewrite andb_false_r; reflexivity).
  all: f_equal; apply existsb_ext_in; intros [|[i|]]; reflexivity.
Qed.
Lemma skip_false l : is_skip_field l = false <-> ~ skipped l.
Proof. rewrite <- skip_iff. destruct (is_skip_field l); split; congruence. Qed.
Lemma skip_if_false l : has_skip_serializing_if l = false <-> ~ skipped_if l.
Proof. rewrite <- skip_if_iff. destruct (has_skip_serializing_if l); split; congruence. Qed.

(** ** The header as a function *)
Definition header_struct (fs : list (attrs * option header)) : option header :=
  if existsb (fun f => has_skip_serializing_if (fst f)) fs then None
  else option_map HTuple (all_some (map snd (filter (fun f => negb (is_skip_field (fst f))) fs))).
Definition header_variant (fs : list (option header)) : option header := option_map variant_header (all_some fs).
Definition header_enum (vs : list (attrs * list (option header))) : option header :=
  if existsb (fun v => has_skip_serializing_if (fst v)) vs then None
  else option_map HEnum (all_some (map header_variant (map snd (filter (fun v => negb (is_skip_field (fst v))) vs)))).
Fixpoint header_of (t : rty) : option header :=
  match t with
  | RLeaf l => Some (leaf_header l)
  | ROption t => option_map HOptional (header_of t)
  | RVec t => option_map HArray (header_of t)
  | RBTreeMap t | RHashMap t => option_map HMap (header_of t)
  | RTuple ts =>
      if (1 <=? lenN ts) && (lenN ts <=? 16) then option_map HTuple (all_some (map header_of ts)) else None
  | RStruct _ fs => header_struct (map (fun f => (fst f, header_of (snd (snd f)))) fs)
  | REnum vs => header_enum (map (fun v => (fst v, map (fun f => header_of (snd (snd f))) (snd (snd v)))) vs)
  | RUnion | RItem _ => None
  end.

Lemma option_map_some {A B} (f : A -> B) o b : option_map f o = Some b <-> exists a, o = Some a /\ b = f a.
Proof.
  destruct o as [a|]; cbn [option_map]; split; try discriminate.
  - intros H; injection H as <-; eauto.
  - intros (a' & H & ->). congruence.
  - intros (a' & H & _). discriminate.
Qed.
Lemma all_some_cons {A} (o : option A) l r : all_some (o :: l) = Some r <-> exists a t, o = Some a /\ all_some l = Some t /\ r = a :: t.
Proof.
  destruct o as [a|]; cbn [all_some].
  - rewrite option_map_some. split; [intros (t & H & ->); eauto|]. intros (a' & t & H & Ht & ->). exists t. split; [exact Ht|congruence].
  - split; [discriminate|]. intros (a & t & H & _). discriminate.
Qed.
Lemma describes_all_iff ts : Forall (fun t => forall h, describes t h <-> header_of t = Some h) ts ->
  forall hs, describes_all ts hs <-> all_some (map header_of ts) = Some hs.
Proof.
  induction 1 as [|t ts Ht _ IH]; intros hs; cbn [map].
  - split; [intros H; inversion H; reflexivity|]. intros H; injection H as <-; constructor.
  - rewrite all_some_cons. split.
    + intros H; inversion H; subst. exists h, hs0. split; [apply Ht; assumption|]. split; [apply IH; assumption|reflexivity].
    + intros (h & hs' & H1 & H2 & ->). constructor; [apply Ht, H1|apply IH, H2].
Qed.
Lemma describes_fields_iff fs : Forall (fun f => forall h, describes (snd (snd f)) h <-> header_of (snd (snd f)) = Some h) fs ->
  forall hs, describes_fields fs hs <-> header_struct (map (fun f => (fst f, header_of (snd (snd f)))) fs) = Some (HTuple hs).
Proof.
  unfold header_struct. induction 1 as [|[a [n t]] fs Ht _ IH]; intros hs; cbn [map existsb filter fst snd].
  - cbn. split; [intros H; inversion H; reflexivity|]. intros H; injection H as <-; constructor.
  - cbn [fst snd] in Ht. destruct (has_skip_serializing_if a) eqn:Ei; cbn [orb].
    { apply skip_if_iff in Ei. split; [intros H; inversion H; subst; contradiction|discriminate]. }
    apply skip_if_false in Ei. destruct (is_skip_field a) eqn:Es; cbn [negb].
    + apply skip_iff in Es. rewrite <- IH. split; [intros H; inversion H; subst; [assumption|contradiction]|]. apply df_skip; assumption.
    + apply skip_false in Es. cbn [map snd].
      destruct (existsb (fun f => has_skip_serializing_if (fst f)) (map (fun f => (fst f, header_of (snd (snd f)))) fs)) eqn:Ee.
      * split; [|discriminate]. intros H; inversion H; subst; [contradiction|]. apply IH in H8. discriminate.
      * rewrite option_map_some. split.
        -- intros H; inversion H; subst; [contradiction|]. apply IH, option_map_some in H8 as (hs' & H8 & E). injection E as <-.
           eexists. rewrite all_some_cons. split; [|reflexivity]. apply Ht in H7. eauto.
        -- intros (l & Hl & E). injection E as <-. apply all_some_cons in Hl as (h & l' & H1 & H2 & ->).
           apply df_keep; [assumption|assumption|apply Ht, H1|apply IH]. rewrite H2. reflexivity.
Qed.
Lemma describes_variants_iff vs :
  Forall (fun v => Forall (fun f => forall h, describes (snd (snd f)) h <-> header_of (snd (snd f)) = Some h) (snd (snd v))) vs ->
  forall hs, describes_variants vs hs <->
    header_enum (map (fun v => (fst v, map (fun f => header_of (snd (snd f))) (snd (snd v)))) vs) = Some (HEnum hs).
Proof.
  unfold header_enum. induction 1 as [|[a [k fs]] vs Ht _ IH]; intros hs; cbn [map existsb filter fst snd].
  - cbn. split; [intros H; inversion H; reflexivity|]. intros H; injection H as <-; constructor.
  - cbn [fst snd] in Ht.
    assert (Ha : forall fhs, describes_all (map (fun f => snd (snd f)) fs) fhs <->
       all_some (map (fun f => header_of (snd (snd f))) fs) = Some fhs).
    { intros fhs. rewrite describes_all_iff by (apply Forall_map, Ht). rewrite map_map. reflexivity. }
    destruct (has_skip_serializing_if a) eqn:Ei; cbn [orb].
    { apply skip_if_iff in Ei. split; [intros H; inversion H; subst; contradiction|discriminate]. }
    apply skip_if_false in Ei. destruct (is_skip_field a) eqn:Es; cbn [negb].
    + apply skip_iff in Es. rewrite <- IH. split; [intros H; inversion H; subst; [assumption|contradiction]|]. apply dv_skip; assumption.
    + apply skip_false in Es. cbn [map snd].
      destruct (existsb _ _) eqn:Ee in IH |- *.
      * split; [|discriminate]. intros H; inversion H; subst; [contradiction|]. apply IH in H8. discriminate.
      * rewrite option_map_some. split.
        -- intros H; inversion H; subst; [contradiction|]. apply IH, option_map_some in H8 as (hs' & H8 & E). injection E as <-.
           eexists. rewrite all_some_cons. split; [|reflexivity]. apply Ha in H7. unfold header_variant at 1. rewrite H7. cbn [option_map]. eauto.
        -- intros (l & Hl & E). injection E as <-. apply all_some_cons in Hl as (h & l' & H1 & H2 & ->).
           apply option_map_some in H1 as (fhs & H1 & ->).
           apply dv_keep; [assumption|assumption|apply Ha, H1|apply IH]. rewrite H2. reflexivity.
Qed.
Lemma describes_iff t : forall h, describes t h <-> header_of t = Some h.
Proof.
  apply (rty_ind2 (fun t => forall h, describes t h <-> header_of t = Some h)); clear t.
  - intros l h. cbn [header_of]. split; [intros H; inversion H; reflexivity|]. intros H; injection H as <-; constructor.
  - intros t IH h. cbn [header_of]. rewrite option_map_some. split; [intros H; inversion H; subst; eexists; split; [apply IH; eassumption|reflexivity]|].
    intros (a & Ha & ->). constructor; apply IH, Ha.
  - intros t IH h. cbn [header_of]. rewrite option_map_some. split; [intros H; inversion H; subst; eexists; split; [apply IH; eassumption|reflexivity]|].
    intros (a & Ha & ->). constructor; apply IH, Ha.
  - intros t IH h. cbn [header_of]. rewrite option_map_some. split; [intros H; inversion H; subst; eexists; split; [apply IH; eassumption|reflexivity]|].
    intros (a & Ha & ->). constructor; apply IH, Ha.
  - intros t IH h. cbn [header_of]. rewrite option_map_some. split; [intros H; inversion H; subst; eexists; split; [apply IH; eassumption|reflexivity]|].
    intros (a & Ha & ->). constructor; apply IH, Ha.
  - intros ts IH h. cbn [header_of]. unfold lenN. destruct (_ && _) eqn:E.
    + rewrite option_map_some. split.
      * intros H; inversion H; subst. exists hs; split; [apply describes_all_iff; assumption|reflexivity].
      * intros (hs & Hs & ->). constructor; [lia|]. apply describes_all_iff; assumption.
    + split; [|discriminate]. intros H; inversion H; subst. lia.
  - intros k fs IH h. cbn [header_of]. split.
    + intros H; inversion H; subst. apply describes_fields_iff; assumption.
    + intros H. assert (exists hs, h = HTuple hs) as [hs ->].
      { unfold header_struct in H. destruct (existsb _ _); [discriminate|]. apply option_map_some in H as (hs & _ & ->); eauto. }
      constructor. apply describes_fields_iff; assumption.
  - intros vs IH h. cbn [header_of]. split.
    + intros H; inversion H; subst. apply describes_variants_iff; assumption.
    + intros H. assert (exists hs, h = HEnum hs) as [hs ->].
      { unfold header_enum in H. destruct (existsb _ _); [discriminate|]. apply option_map_some in H as (hs & _ & ->); eauto. }
      constructor. apply describes_variants_iff; assumption.
  - intros h. cbn [header_of]. split; [intros H; inversion H|discriminate].
  - intros i h. cbn [header_of]. split; [intros H; inversion H|discriminate].
Qed.
Lemma describes_det t h h' : describes t h -> describes t h' -> h = h'.
Proof. rewrite !describes_iff. congruence. Qed.

(** ** Bytes written *)
Definition agree (w : option wprog) (h : option header) : Prop :=
  match w, h with
  | Some w, Some h => wresult w = WeOk /\ wbytes w = wbytes (hser h)
  | None, None => True
  | _, _ => False
  end.
Lemma all_some_agree ws hs : Forall2 agree ws hs ->
  match all_some ws, all_some hs with
  | Some ws', Some hs' => wresult (wconcat ws') = WeOk /\ wbytes (wconcat ws') = wbytes (wconcat (map hser hs')) /\ length ws = length hs'
  | None, None => True
  | _, _ => False
  end.
Proof.
  induction 1 as [|w h ws hs Hwh _ IH]; [cbn; auto|].
  destruct w as [w|], h as [h|]; cbn [agree] in Hwh; try contradiction; cbn [all_some]; [|exact I].
  destruct (all_some ws) as [ws'|], (all_some hs) as [hs'|]; try contradiction; cbn [option_map]; [|exact I].
  destruct Hwh as [H1 H2], IH as (H3 & H4 & H5).
  change (wconcat (w :: ws')) with (wseq w (wconcat ws')). cbn [map]. change (wconcat (hser h :: map hser hs')) with (wseq (hser h) (wconcat (map hser hs'))).
  split; [apply wresult_wseq_ok_iff; auto|]. split.
  - rewrite !wbytes_wseq_done, H2, H4; [reflexivity|apply hser_wire|exact H1].
  - cbn [length]; lia.
Qed.
Lemma agree_box w h code f : (forall h, hser (f h) = wseq (wr [code]) (hser h)) -> agree w h ->
  agree (option_map (wseq (wr [code])) w) (option_map f h).
Proof.
  intros Hf. destruct w as [w|], h as [h|]; cbn [option_map agree]; auto. rewrite Hf, wresult_seq_wr, !wbytes_seq_wr.
  intros [H1 ->]. auto.
Qed.
Lemma Forall2_map_l {A B C} (R : B -> C -> Prop) (f : A -> B) l m : Forall2 (fun a c => R (f a) c) l m -> Forall2 R (map f l) m.
Proof. induction 1; constructor; assumption. Qed.
Lemma Forall2_map_same {A B C} (R : B -> C -> Prop) (f : A -> B) (g : A -> C) l :
  Forall (fun a => R (f a) (g a)) l -> Forall2 R (map f l) (map g l).
Proof. induction 1; constructor; assumption. Qed.
Lemma len_u16_length {A B} (l : list A) (m : list B) : length l = length m -> len_u16 l = len_u16 m.
Proof. unfold len_u16, lenN. intros ->; reflexivity. Qed.

Lemma agree_struct fs gs : Forall2 (fun f g => fst f = fst g /\ agree (snd f) (snd g)) fs gs ->
  agree (derive_struct fs) (header_struct gs).
Proof.
  intros H. unfold derive_struct, header_struct.
  assert (E : existsb (fun f : attrs * option wprog => has_skip_serializing_if (fst f)) fs =
              existsb (fun f : attrs * option header => has_skip_serializing_if (fst f)) gs).
  { induction H as [|f g fs gs [Hf _] _ IH]; [reflexivity|]. cbn [existsb]. rewrite Hf, IH. reflexivity. }
  rewrite E. destruct (existsb _ gs); [exact I|]. clear E.
  assert (HF : Forall2 agree (map snd (filter (fun f => negb (is_skip_field (fst f))) fs))
                             (map snd (filter (fun f => negb (is_skip_field (fst f))) gs))).
  { induction H as [|f g fs gs [Hf Ha] _ IH]; [constructor|]. cbn [filter]. rewrite Hf.
    destruct (negb _); [constructor; assumption|exact IH]. }
  apply all_some_agree in HF. cbv zeta.
  destruct (all_some (map snd (filter _ fs))) as [ws|], (all_some (map snd (filter _ gs))) as [hs|]; try contradiction; cbn [option_map agree]; [|exact I].
  destruct HF as (H1 & H2 & H3). rewrite wresult_seq_wr, wbytes_seq_wr. split; [exact H1|].
  cbn [hser]. rewrite !wbytes_seq_wr, H2. rewrite (len_u16_length _ hs H3). reflexivity.
Qed.
Lemma agree_variant ws hs : Forall2 agree ws hs -> agree (derive_variant ws) (header_variant hs).
Proof.
  intros H. pose proof (all_some_agree ws hs H) as HA. unfold header_variant.
  destruct H as [|w h ws hs Hw H]; [cbn; auto|]. destruct H as [|w' h' ws hs Hw' H].
  - destruct w as [w|], h as [h|]; cbn in Hw |- *; try contradiction; auto.
  - unfold derive_variant. destruct (all_some (w :: w' :: ws)) as [l|], (all_some (h :: h' :: hs)) as [m|] eqn:E; try contradiction; cbn [option_map agree]; [|exact I].
    destruct HA as (H1 & H2 & H3). destruct m as [|x [|y m]]; cbn [length] in H3; try lia.
    rewrite wresult_seq_wr, wbytes_seq_wr. split; [exact H1|]. cbn [variant_header].
    cbn [hser]. rewrite !wbytes_seq_wr, H2. rewrite (len_u16_length _ (x :: y :: m)) by exact H3. reflexivity.
Qed.
Lemma agree_enum vs us : Forall2 (fun v u => fst v = fst u /\ Forall2 agree (snd v) (snd u)) vs us ->
  agree (derive_enum vs) (header_enum us).
Proof.
  intros H. unfold derive_enum, header_enum.
  assert (E : existsb (fun f : attrs * list (option wprog) => has_skip_serializing_if (fst f)) vs =
              existsb (fun f : attrs * list (option header) => has_skip_serializing_if (fst f)) us).
  { induction H as [|f g fs gs [Hf _] _ IH]; [reflexivity|]. cbn [existsb]. rewrite Hf, IH. reflexivity. }
  rewrite E. destruct (existsb _ us); [exact I|]. clear E. cbv zeta.
  assert (HF : Forall2 agree (map derive_variant (map snd (filter (fun f => negb (is_skip_field (fst f))) vs)))
                             (map header_variant (map snd (filter (fun f => negb (is_skip_field (fst f))) us)))).
  { induction H as [|f g fs gs [Hf Ha] _ IH]; [constructor|]. cbn [filter]. rewrite Hf.
    destruct (negb _); [constructor; [apply agree_variant|]; assumption|exact IH]. }
  pose proof (all_some_agree _ _ HF) as HA.
  destruct (all_some (map derive_variant _)) as [ws|], (all_some (map header_variant _)) as [hs|]; try contradiction; cbn [option_map agree]; [|exact I].
  destruct HA as (H1 & H2 & H3). rewrite wresult_seq_wr, wbytes_seq_wr. split; [exact H1|].
  cbn [hser]. rewrite !wbytes_seq_wr, H2. rewrite map_length in H3. rewrite (len_u16_length _ hs H3). reflexivity.
Qed.
Lemma ser_header_agree t : agree (ser_header t) (header_of t).
Proof.
  apply (rty_ind2 (fun t => agree (ser_header t) (header_of t))); clear t.
  - intros l. destruct l; cbn; auto.
  - intros t IH. apply (agree_box _ _ OPTIONAL_CODE HOptional); [reflexivity|exact IH].
  - intros t IH. apply (agree_box _ _ ARRAY_CODE HArray); [reflexivity|exact IH].
  - intros t IH. apply (agree_box _ _ MAP_CODE HMap); [reflexivity|exact IH].
  - intros t IH. apply (agree_box _ _ MAP_CODE HMap); [reflexivity|exact IH].
  - intros ts IH. unfold ser_header; cbn [ser_header_in header_of]; fold ser_header. destruct (_ && _) eqn:E; [|exact I].
    pose proof (all_some_agree _ _ (Forall2_map_same agree ser_header header_of ts IH)) as HA.
    destruct (all_some (map ser_header ts)) as [ws|], (all_some (map header_of ts)) as [hs|]; try contradiction; cbn [option_map agree]; [|exact I].
    destruct HA as (H1 & H2 & H3). rewrite map_length in H3. rewrite !wresult_seq_wr, !wbytes_seq_wr. split; [exact H1|].
    cbn [hser]. rewrite !wbytes_seq_wr, H2. unfold len_u16, lenN in *. rewrite <- H3, N.mod_small by (change (2 ^ 16) with 65536; lia). reflexivity.
  - intros k fs IH. unfold ser_header; cbn [ser_header_in header_of]; fold ser_header. apply agree_struct, Forall2_map_same. eapply Forall_impl; [|exact IH]. cbn [fst snd]. auto.
  - intros vs IH. unfold ser_header; cbn [ser_header_in header_of]; fold ser_header. apply agree_enum, Forall2_map_same. eapply Forall_impl; [|exact IH]. cbn [fst snd].
    intros v Hv. split; [reflexivity|]. apply Forall2_map_same, Hv.
  - exact I.
  - intros i. exact I.
Qed.
(** A type compiles exactly when it is described. *)
Lemma ser_header_compiles t : (exists w, ser_header t = Some w) <-> (exists h, describes t h).
Proof.
  pose proof (ser_header_agree t) as H. split.
  - intros [w Hw]. rewrite Hw in H. destruct (header_of t) as [h|] eqn:E; [|destruct H]. exists h. apply describes_iff, E.
  - intros [h Hh]. apply describes_iff in Hh. rewrite Hh in H. destruct (ser_header t) as [w|]; [eauto|destruct H].
Qed.
Lemma ser_header_spec t w h : ser_header t = Some w -> describes t h -> wresult w = WeOk /\ wbytes w = wbytes (hser h).
Proof.
  intros Hw Hh. pose proof (ser_header_agree t) as H. apply describes_iff in Hh. rewrite Hw, Hh in H. exact H.
Qed.
