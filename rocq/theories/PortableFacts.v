(** * Proofs about SpecPortable.v. *)
From Coq Require Import String Sorted.
From Verif Require Import Base BaseFacts Serde Typing SerdeFacts SerdeSafe Header HeaderFacts Body SpecVarint SpecUtf8 SpecMap SpecBody SpecAccept AcceptFacts SpecReject RejectFacts SpecReads ReadsFacts SpecPortable.
Local Open Scope list_scope.
Local Open Scope N_scope.

Scheme accepts_mind := Induction for accepts Sort Prop
  with accepts_all_mind := Induction for accepts_all Sort Prop
  with accepts_entries_mind := Induction for accepts_entries Sort Prop.
Combined Scheme accepts_mut from accepts_mind, accepts_all_mind, accepts_entries_mind.

Lemma code_pos m u n : code m u n -> 1 <= lenN u.
Proof. intros (p & t & -> & _). rewrite lenN_cons. lia. Qed.
Lemma block_pos u b : block u b -> lenN b + 1 <= lenN u.
Proof. intros (l & -> & H). apply code_pos in H. rewrite lenN_app. lia. Qed.

Lemma field_type_unique fields k d d' : NoDup (map fst fields) -> field_type fields k d -> field_type fields k d' -> d = d'.
Proof.
  unfold field_type. induction fields as [|f fields IH]; intros Hn H H'; [destruct H|]. cbn [map] in Hn. inversion Hn as [|? ? Hf Hn']; subst.
  destruct H as [->|H], H' as [E|H'].
  - congruence.
  - destruct Hf. cbn. exact (in_map fst _ _ H').
  - subst f. destruct Hf. cbn. exact (in_map fst _ _ H).
  - auto.
Qed.
(** Values of filling types take a byte. *)
Lemma accepts_fill c :
  (forall d u v, accepts c d u v -> shaped d = true -> fills d = true -> 1 <= lenN u) /\
  (forall ds u vs, accepts_all c ds u vs -> forallb shaped ds = true -> existsb fills ds = true -> 1 <= lenN u) /\
  (forall d u es, accepts_entries c d u es -> lenN es <= lenN u).
Proof.
  apply accepts_mut; intros; cbn [fills existsb shaped forallb] in *; rewrite ?lenN_app, ?lenN_cons;
    repeat match goal with H : code _ _ _ |- _ => apply code_pos in H | H : block _ _ |- _ => apply block_pos in H end; try lia; try discriminate; auto.
  - unfold lenN; lia.
  - unfold lenN; lia.
  - (* struct *)
    apply andb_prop in H0 as [Hn Hs]. apply nodupb_NoDup in Hn. rewrite forallb_forall in Hs.
    apply existsb_exists in H1 as ([k d] & Hk & Hf). cbn [fst snd] in Hf. apply andb_prop in Hf as [Hf Hin]. apply existsb_exists in Hin as (k' & Hin & E). apply String.eqb_eq in E. subst k'.
    apply H; [|].
    + apply forallb_forall. intros d' Hd'. revert Hd'. clear - f Hs. induction f as [|k d ks ds Hkd _ IH]; intros [].
      * subst. exact (Hs _ Hkd).
      * auto.
    + apply existsb_exists. exists d. split; [|exact Hf]. revert Hin. clear - f Hn Hk. induction f as [|k' d' ks ds Hkd _ IH]; intros [].
      * subst. left. exact (field_type_unique fields k d' d Hn Hkd Hk).
      * right. auto.
Qed.
Lemma accepts_all_count c d u (vs : list sval) : shaped d = true -> fills d = true -> accepts_all c (map (fun _ => d) vs) u vs -> lenN vs <= lenN u.
Proof.
  intros Hs Hf. revert u. induction vs as [|v vs IH]; intros u H; cbn [map] in H; inversion H; subst; [reflexivity|].
  rewrite lenN_cons, lenN_app. specialize (IH _ H6). pose proof (proj1 (accepts_fill c) _ _ _ H4 Hs Hf). lia.
Qed.

(** ** Values *)
Section Small.
  Context (c' : cfg).
  Let top := 2 ^ usize_bits c'.
  Lemma kept_small n : n < top -> kept c' n = n.
  Proof. apply N.mod_small. Qed.
  Lemma text_to u b r : wellformed b -> block u b -> lenN u < top -> text_read c' (u ++ r) (OOk b r).
  Proof.
    intros Hb Hu Hn. pose proof (block_pos _ _ Hu). destruct Hu as (l & -> & Hl). rewrite <- app_assoc. apply tr_text with (lenN b); [exact Hl|left; reflexivity| |exact Hb].
    symmetry. apply kept_small. lia.
  Qed.
  Lemma bytes_to size u b r : (forall n, n < top -> size n = n) -> block u b -> lenN u < top -> bytes_read size (u ++ r) (OOk b r).
  Proof.
    intros Hz Hu Hn. pose proof (block_pos _ _ Hu). destruct Hu as (l & -> & Hl). rewrite <- app_assoc. apply by_bytes with (lenN b); [exact Hl|].
    symmetry. apply Hz. lia.
  Qed.
  Lemma buffer_small n : n < top -> buffer_size c' n = n.
  Proof. intros H. unfold buffer_size. apply N.ltb_lt in H. unfold top in H. rewrite H. reflexivity. Qed.
End Small.
Section To.
  Context (c c' : cfg).
  Hypothesis Ho : overflow_checks c = overflow_checks c'.
  Let top := 2 ^ usize_bits c'.
  Lemma plain_to d u v : plain d = true -> accepts c d u v -> accepts c' d u v.
  Proof. intros Hd H. destruct d; try discriminate Hd; inversion H; subst; constructor; try assumption. unfold date_range in *. rewrite <- Ho. assumption. Qed.
  Lemma reads_fields_to fields keys ds : forall u vs r, NoDup keys -> Forall2 (field_type fields) keys ds ->
    (forall seen, Forall (fun k => ~ In k seen) keys -> reads_all c' ds (u ++ r) (OOk vs r) -> reads_fields c' fields seen keys (u ++ r) (OOk (combine keys vs) r)).
  Proof.
    intros u vs r. generalize (u ++ r). clear u. revert ds vs r. induction keys as [|k keys IH]; intros ds vs r s Hn Hf seen Hs H.
    - inversion Hf; subst. inversion H; subst. constructor.
    - inversion Hf as [|? d ? ds' Hd Hf']; subst. inversion Hn; subst. inversion Hs; subst.
      remember (OOk vs r) as o eqn:Eo. inversion H as [| ? ? ? ? ? E|? ? ? v r' o' Hv Ho']; subst.
      + match goal with E : stop _ = OOk _ _ |- _ => destruct (stop_ok _ _ _ (eq_sym E)) || destruct (stop_ok _ _ _ E) end.
      + destruct o' as [vs' r''| |]; try discriminate. match goal with E : omap _ _ = OOk _ _ |- _ => injection E as <- <- end. cbn [combine].
        apply (rf_cons c' fields seen k d keys s v r' (OOk (combine keys vs') r'')); try assumption. eapply IH; try eassumption.
        apply Forall_forall. intros k' Hk' [->|Hin]; [contradiction|]. rewrite Forall_forall in H5. exact (H5 _ Hk' Hin).
  Qed.
  Lemma reads_to :
    (forall d u v, accepts c d u v -> shaped d = true -> portable d = true -> lenN u < top -> forall r, reads c' d (u ++ r) (OOk v r)) /\
    (forall ds u vs, accepts_all c ds u vs -> forallb shaped ds = true -> forallb portable ds = true -> lenN u < top ->
      forall r, reads_all c' ds (u ++ r) (OOk vs r)) /\
    (forall d u es, accepts_entries c d u es -> shaped d = true -> portable d = true -> lenN u < top ->
      forall r, reads_entries c' d (length es) (u ++ r) (OOk es r)).
  Proof.
    apply accepts_mut; intros; cbn [shaped portable forallb] in *;
      try (apply rd_plain; [reflexivity|]; constructor; assumption); try discriminate.
    - (* char *) apply rd_char with t; [assumption|]. apply text_to; try assumption.
      destruct w as (cs & Hcs & ->). exists (ch :: cs). split; [constructor; assumption|reflexivity].
    - apply (rd_string c' _ (OOk bs r)), text_to; assumption.
    - apply (rd_buf c' _ (OOk bs r)), (bytes_to c'); try assumption. exact (buffer_small c').
    - apply rd_none.
    - rewrite lenN_cons in *. apply (rd_some c' d _ (OOk v r)), H; try assumption. lia.
    - apply (rd_newtype c' d _ (OOk v r)), H; assumption.
    - (* vec *) apply andb_prop in H1 as [Hp Hf]. rewrite lenN_app in *. pose proof (accepts_all_count _ _ _ _ H0 Hf a).
      rewrite <- app_assoc. apply (rd_vec c' d l (lenN vs) _ (OOk vs r)); [assumption|]. rewrite kept_small by (fold top; lia).
      replace (repeat d (N.to_nat (lenN vs))) with (map (fun _ => d) vs) by (unfold lenN; rewrite Nnat.Nat2N.id; clear; induction vs; cbn; congruence).
      apply H; [| |lia]; apply forallb_forall; intros d' Hd'; apply in_map_iff in Hd' as (? & <- & _); assumption.
    - apply (rd_tuple c' ds _ (OOk vs r)), H; assumption.
    - apply (rd_tuple_struct c' ds _ (OOk vs r)), H; assumption.
    - (* map *) rewrite lenN_app in *. pose proof (proj2 (proj2 (accepts_fill c)) _ _ _ a).
      rewrite <- app_assoc. apply rd_map with (lenN es) es; try assumption. rewrite kept_small by (fold top; lia).
      replace (N.to_nat (lenN es)) with (length es) by (unfold lenN; lia). apply H; try assumption; lia.
    - (* struct *) apply andb_prop in H0 as [Hn Hs]. apply rd_struct with (combine keys vs); [|assumption].
      apply reads_fields_to with ds; try assumption; [apply Forall_forall; auto|].
      rewrite forallb_forall in Hs, H1. apply H; [| |assumption]; apply forallb_forall; intros d' Hd'.
      + revert Hd'. clear - f Hs. induction f as [|k d ks ds Hkd _ IH]; intros []; [subst; exact (Hs _ Hkd)|auto].
      + revert Hd'. clear - f H1. induction f as [|k d ks ds Hkd _ IH]; intros []; [subst; exact (H1 _ Hkd)|auto].
    - eapply rd_unit_variant; eassumption.
    - rewrite forallb_forall in H0, H1. pose proof (proj1 (pickN_some _ _ _ e)) as Hin. specialize (H0 _ Hin). specialize (H1 _ Hin). cbn [fst snd] in *. apply andb_prop in H0 as [_ H0].
      rewrite lenN_app in *. rewrite <- app_assoc. apply (rd_newtype_variant c' _ l i d _ (OOk v r)); try assumption. apply H; try assumption; lia.
    - rewrite forallb_forall in H0, H1. pose proof (proj1 (pickN_some _ _ _ e)) as Hin. specialize (H0 _ Hin). specialize (H1 _ Hin). cbn [fst snd] in *. apply andb_prop in H0 as [_ H0].
      rewrite lenN_app in *. rewrite <- app_assoc. apply (rd_tuple_variant c' _ l i ds _ (OOk xs r)); try assumption. apply H; try assumption; lia.
    - rewrite forallb_forall in H0, H1. pose proof (proj1 (pickN_some _ _ _ e)) as Hin. specialize (H0 _ Hin). specialize (H1 _ Hin). cbn [fst snd] in *. apply andb_prop in H0 as [_ H0].
      rewrite lenN_app in *. rewrite <- app_assoc. eapply rd_struct_variant; try eassumption. apply H; try assumption; lia.
    - apply (rd_biguint c' _ (OOk bs r)), (bytes_to c'); try assumption. exact (kept_small c').
    - apply (rd_bigint c' _ (OOk bs r)), (bytes_to c'); try assumption. exact (kept_small c').
    - apply rd_decimal_zero with 0%Z. apply dr_zero. apply (bytes_to c' _ l []); [exact (kept_small c')|exists l; split; [symmetry; apply app_nil_r|assumption]|assumption].
    - rewrite lenN_app in *. rewrite <- app_assoc. apply rd_decimal; [assumption|]. apply dr_scale with (l := l); try assumption. apply (bytes_to c'); try assumption; [exact (kept_small c')|fold top; lia].
    - apply rd_plain; [reflexivity|]. constructor; try assumption. unfold date_range in *. rewrite <- Ho. assumption.
    - constructor.
    - apply andb_prop in H1 as [? ?], H2 as [? ?]. rewrite lenN_app in *. rewrite <- app_assoc.
      apply (ra_cons c' d ds _ v (w ++ r) (OOk vs r)); [apply H|apply H0]; try assumption; lia.
    - constructor.
    - rewrite !lenN_app in *. rewrite <- !app_assoc. cbn [length]. eapply (re_cons c' d _ _ k _ v _ (OOk es r)); [apply text_to; try assumption; fold top; lia|apply H; try assumption; lia|apply H0; try assumption; lia].
  Qed.
End To.
Lemma portable_de c c' d s v r : wf_cfg c -> wf_cfg c' -> usize_bits c = 64 -> overflow_checks c = overflow_checks c' ->
  4096 <= heap_limit c -> 4096 <= heap_limit c' -> shaped d = true -> portable d = true -> bytes_ok s -> lenN s < 2 ^ 32 ->
  run c (de c d) s = OOk v r -> run c' (de c' d) s = OOk v r.
Proof.
  intros Hw Hw' H64 Ho Hh Hh' Hd Hp Hs Hn E. apply lang_de in E as (u & -> & H); try assumption.
  apply (does_iff c' (de c' d) (reads c' d) (does_de c' d Hw' Hh' Hd)); [exact Hs|].
  apply (proj1 (reads_to c c' Ho) d u v H Hd Hp). rewrite lenN_app in Hn. destruct Hw' as [[-> | ->] _]; cbn in *; lia.
Qed.

(** ** Bodies *)
Scheme body_accepts_mind := Induction for body_accepts Sort Prop
  with bodies_accept_mind := Induction for bodies_accept Sort Prop
  with body_entries_accept_mind := Induction for body_entries_accept Sort Prop.
Combined Scheme body_accepts_mut from body_accepts_mind, bodies_accept_mind, body_entries_accept_mind.
Lemma body_accepts_fill c :
  (forall h u b, body_accepts c h u b -> header_fills h = true -> 1 <= lenN u) /\
  (forall hs u bs, bodies_accept c hs u bs -> existsb header_fills hs = true -> 1 <= lenN u) /\
  (forall h u es, body_entries_accept c h u es -> lenN es <= lenN u).
Proof.
  apply body_accepts_mut; intros; cbn [header_fills existsb] in *; rewrite ?lenN_app, ?lenN_cons;
    repeat match goal with H : code _ _ _ |- _ => apply code_pos in H | H : block _ _ |- _ => apply block_pos in H end; try lia; try discriminate; auto.
  - unfold lenN; lia.
  - unfold lenN; lia.
Qed.
Lemma bodies_accept_count c h u (bs : list body) : header_fills h = true -> bodies_accept c (map (fun _ => h) bs) u bs -> lenN bs <= lenN u.
Proof.
  intros Hf. revert u. induction bs as [|b bs IH]; intros u H; cbn [map] in H; inversion H; subst; [reflexivity|].
  rewrite lenN_cons, lenN_app. specialize (IH _ H6). pose proof (proj1 (body_accepts_fill c) _ _ _ H4 Hf). lia.
Qed.
Lemma widest_in h hs z : In h hs -> widest h <= fold_right N.max z (map widest hs).
Proof. induction hs as [|h' hs IH]; intros []; cbn [map fold_right]; [subst; lia|]. specialize (IH H). lia. Qed.
Lemma widest_base hs z : z <= fold_right N.max z (map widest hs).
Proof. induction hs as [|h' hs IH]; cbn [map fold_right]; lia. Qed.
Lemma fits_mono c m n : n <= m -> fits c m -> fits c n.
Proof. unfold fits. intros H [H1 H2]. assert (n * size_of_body c <= m * size_of_body c) by nia. lia. Qed.
Lemma fits_room c n : fits c n -> forall q, ~ no_room c n q.
Proof. intros [H1 H2] q [[H3 _]|[_ [H3 _]]]; lia. Qed.
Ltac fit := match goal with F : fits ?c ?m |- fits ?c ?n => apply (fits_mono c m n); [lia|exact F] end.
Section BodyTo.
  Context (c c' : cfg).
  Hypothesis Ho : overflow_checks c = overflow_checks c'.
  Let top := 2 ^ usize_bits c'.
  Lemma body_reads_to :
    (forall h u b, body_accepts c h u b -> header_portable h = true -> lenN u < top -> fits c' (lenN u) -> fits c' (widest h) ->
      forall r, body_reads c' h (u ++ r) (OOk b r)) /\
    (forall hs u bs, bodies_accept c hs u bs -> forallb header_portable hs = true -> lenN u < top -> fits c' (lenN u) ->
      (forall h, In h hs -> fits c' (widest h)) -> forall r, bodies_read c' hs (u ++ r) (OOk bs r)) /\
    (forall h u es, body_entries_accept c h u es -> header_portable h = true -> lenN u < top -> fits c' (lenN u) -> fits c' (widest h) ->
      forall r, body_entries_read c' h (length es) (u ++ r) (OOk es r)).
  Proof.
    apply body_accepts_mut; intros; cbn [header_portable forallb widest] in *;
      try (apply bd_plain; [reflexivity|]; constructor; assumption); try discriminate; rewrite ?lenN_cons, ?lenN_app in *.
    - apply bd_none.
    - apply (bd_some c' h _ (OOk b r)), H; try assumption; [lia|]. fit.
    - apply (bd_biguint c' _ (OOk bs r)), (bytes_to c'); try assumption. exact (kept_small c').
    - apply (bd_bigint c' _ (OOk bs r)), (bytes_to c'); try assumption. exact (kept_small c').
    - apply (bd_decimal c' _ (OOk ([], 0%Z) r)). apply dr_zero. apply (bytes_to c' _ l []); [exact (kept_small c')|exists l; split; [symmetry; apply app_nil_r|assumption]|assumption].
    - rewrite <- app_assoc. apply (bd_decimal c' _ (OOk (bs, unzigzag n) r)). apply dr_scale with (l := l); try assumption.
      apply (bytes_to c'); try assumption; [exact (kept_small c')|]. fold top. lia.
    - apply (bd_string c' _ (OOk bs r)), text_to; assumption.
    - apply (bd_binary c' _ (OOk bs r)), (bytes_to c'); try assumption. exact (buffer_small c').
    - (* array *) apply andb_prop in H0 as [Hp Hf]. pose proof (bodies_accept_count _ _ _ _ Hf b).
      rewrite <- app_assoc. apply (bd_array c' h l (lenN bs) _ (OOk bs r)); [assumption| |].
      + rewrite kept_small by (fold top; lia). apply fits_room. fit.
      + replace (repeat h (N.to_nat (lenN bs))) with (map (fun _ => h) bs) by (unfold lenN; rewrite Nnat.Nat2N.id; clear; induction bs; cbn; congruence).
        apply H; [|lia|fit|].
        * apply forallb_forall; intros d' Hd'; apply in_map_iff in Hd' as (? & <- & _); assumption.
        * intros d' Hd'; apply in_map_iff in Hd' as (? & <- & _); assumption.
    - (* tuple *) apply (bd_tuple c' hs _ (OOk bs r)).
      + apply fits_room. eapply fits_mono; [|eassumption]. apply widest_base.
      + apply H; try assumption. intros h Hh. eapply fits_mono; [|eassumption]. apply widest_in, Hh.
    - (* map *) pose proof (proj2 (proj2 (body_accepts_fill c)) _ _ _ b).
      rewrite <- app_assoc. apply bd_map with (lenN es) es; try assumption.
      replace (N.to_nat (lenN es)) with (length es) by (unfold lenN; lia). apply H; try assumption; [lia|fit].
    - (* enum *) rewrite forallb_forall in H0. pose proof (proj1 (pickN_some _ _ _ e)) as Hin.
      rewrite <- app_assoc. apply (bd_enum c' hs l i h _ (OOk b r)); try assumption.
      apply H; [apply H0, Hin|lia|fit|eapply fits_mono; [|eassumption]; apply widest_in, Hin].
    - apply bd_plain; [reflexivity|]. constructor; try assumption. unfold date_range in *. rewrite <- Ho. assumption.
    - constructor.
    - apply andb_prop in H1 as [? ?]. rewrite <- app_assoc. apply (bsr_cons c' h hs _ b (w ++ r) (OOk bs r)).
      + apply H; [assumption|lia|fit|apply H4; left; reflexivity].
      + apply H0; [assumption|lia|fit|]. intros h' Hh'. apply H4. right. exact Hh'.
    - constructor.
    - rewrite <- !app_assoc. cbn [length]. eapply (ber_cons c' h _ _ k _ b _ (OOk es r)).
      + apply text_to; try assumption. fold top. lia.
      + apply H; try assumption; [lia|]. fit.
      + apply H0; try assumption; [lia|]. fit.
  Qed.
End BodyTo.
Lemma portable_bde c c' h s b r : wf_cfg c -> wf_cfg c' -> usize_bits c = 64 -> overflow_checks c = overflow_checks c' ->
  4096 <= heap_limit c -> 4096 <= heap_limit c' -> header_portable h = true -> bytes_ok s -> lenN s < 2 ^ 32 ->
  fits c' (lenN s) -> fits c' (widest h) ->
  run c (bde c h) s = OOk b r -> run c' (bde c' h) s = OOk b r.
Proof.
  intros Hw Hw' H64 Ho Hh Hh' Hp Hs Hn Hf Hf' E. apply lang_bde in E as (u & -> & H); try assumption. rewrite lenN_app in Hn, Hf.
  apply (does_iff c' (bde c' h) (body_reads c' h) (does_bde c' h Hw' Hh')); [exact Hs|].
  apply (proj1 (body_reads_to c c' Ho) h u b H Hp); [|fit|assumption]. destruct Hw' as [[-> | ->] _]; cbn in *; lia.
Qed.
