(** * Size ranges: proofs. *)
From Coq Require Import String.
From Verif Require Import Base BaseFacts Varint SpecVarint VarintFacts ZigZagFacts Utf8 SpecUtf8 Utf8Facts PrimFacts Serde Typing
  SpecMap SpecDty SpecSize SerdeFacts SerdeMore Consume SerdeSize MapFacts SerdeProps.
Local Open Scope list_scope.
Local Open Scope N_scope.

(** [rng c P sz r]: the sizes of the elements of [P] have range [r]. *)
Definition rng {X} (c : cfg) (P : X -> Prop) (sz : X -> N) (r : range) : Prop :=
  match r with
  | None => forall x, ~ P x
  | Some (a, b) =>
    (forall x, P x -> a <= sz x /\ match b with Some b => sz x <= b | None => True end) /\
    (exists x, P x /\ sz x = a) /\
    match b with
    | Some b => exists x, P x /\ sz x = b
    | None => forall k, k < 2 ^ usize_bits c -> exists x, P x /\ k <= sz x
    end
  end.
Lemma rng_iso {X Y} c (P : X -> Prop) sz (Q : Y -> Prop) sz' (f : X -> Y) r :
  rng c P sz r -> (forall x, P x -> Q (f x) /\ sz' (f x) = sz x) -> (forall y, Q y -> exists x, P x /\ f x = y) ->
  rng c Q sz' r.
Proof.
  intros H Hf Hs. destruct r as [[a b]|]; cbn [rng] in *.
  - destruct H as (H1 & (x & Hx & <-) & H3). split; [|split].
    + intros y Hy. destruct (Hs y Hy) as (x' & Hx' & <-). rewrite (proj2 (Hf x' Hx')). auto.
    + exists (f x). apply Hf, Hx.
    + destruct b as [b|].
      * destruct H3 as (x' & Hx' & <-). exists (f x'). apply Hf, Hx'.
      * intros k Hk. destruct (H3 k Hk) as (x' & Hx' & Hle). exists (f x'). destruct (Hf x' Hx') as [H4 ->]. auto.
  - intros y Hy. destruct (Hs y Hy) as (x & Hx & _). exact (H x Hx).
Qed.
Lemma rng_add {X Y} c (P : X -> Prop) sz (Q : Y -> Prop) sz' r s :
  rng c P sz r -> rng c Q sz' s ->
  rng c (fun xy => P (fst xy) /\ Q (snd xy)) (fun xy => sz (fst xy) + sz' (snd xy)) (range_add r s).
Proof.
  destruct r as [[a b]|]; [|cbn [range_add rng]; intros H _ [x y] [Hx _]; exact (H x Hx)].
  destruct s as [[a' b']|]; [|cbn [range_add rng]; intros _ H [x y] [_ Hy]; exact (H y Hy)].
  cbn [range_add rng]. intros (H1 & (x & Hx & <-) & H3) (G1 & (y & Hy & <-) & G3). split; [|split].
  - intros [x' y'] [Hx' Hy']. cbn [fst snd] in *. pose proof (H1 x' Hx') as [? ?]. pose proof (G1 y' Hy') as [? ?].
    split; [lia|]. destruct b, b'; [lia|exact I..].
  - exists (x, y). cbn [fst snd]. auto.
  - destruct b as [b|].
    + destruct b' as [b'|].
      * destruct H3 as (x' & Hx' & <-). destruct G3 as (y' & Hy' & <-). exists (x', y'). cbn [fst snd]. auto.
      * intros k Hk. destruct (G3 k Hk) as (y' & Hy' & Hle). exists (x, y'). cbn [fst snd]. split; [auto|lia].
    + intros k Hk. destruct (H3 k Hk) as (x' & Hx' & Hle). exists (x', y). cbn [fst snd]. split; [auto|lia].
Qed.
Lemma rng_alt {X} c (P Q R : X -> Prop) sz r s :
  (forall x, R x <-> P x \/ Q x) -> rng c P sz r -> rng c Q sz s -> rng c R sz (range_alt r s).
Proof.
  intros HR. destruct r as [[a b]|].
  - destruct s as [[a' b']|].
    + cbn [range_alt rng]. intros (H1 & (x & Hx & <-) & H3) (G1 & (y & Hy & <-) & G3). split; [|split].
      * intros z Hz. apply HR in Hz as [Hz|Hz]; [destruct (H1 z Hz) as [? ?]|destruct (G1 z Hz) as [? ?]];
          (split; [lia|]; destruct b, b'; [lia|exact I..]).
      * destruct (N.min_dec (sz x) (sz y)) as [E|E]; rewrite E; [exists x|exists y]; (split; [apply HR; tauto|reflexivity]).
      * destruct b as [b|].
        -- destruct b' as [b'|].
           ++ destruct H3 as (x' & Hx' & <-). destruct G3 as (y' & Hy' & <-).
              destruct (N.max_dec (sz x') (sz y')) as [E|E]; rewrite E; [exists x'|exists y']; (split; [apply HR; tauto|reflexivity]).
           ++ intros k Hk. destruct (G3 k Hk) as (y' & Hy' & Hle). exists y'. split; [apply HR; tauto|exact Hle].
        -- intros k Hk. destruct (H3 k Hk) as (x' & Hx' & Hle). exists x'. split; [apply HR; tauto|exact Hle].
    + intros H HQ. cbn [range_alt]. apply (rng_iso c P sz R sz (fun x => x) _ H).
      * intros x Hx. split; [apply HR; tauto|reflexivity].
      * intros y Hy. apply HR in Hy as [Hy|Hy]; [exists y; auto|destruct (HQ y Hy)].
  - intros HP H. cbn [range_alt]. apply (rng_iso c Q sz R sz (fun x => x) _ H).
    + intros x Hx. split; [apply HR; tauto|reflexivity].
    + intros y Hy. apply HR in Hy as [Hy|Hy]; [destruct (HP y Hy)|exists y; auto].
Qed.
(** One value. *)
Lemma rng_one {X} c (P : X -> Prop) sz x n : (forall y, P y <-> y = x) -> sz x = n -> rng c P sz (Some (n, Some n)).
Proof.
  intros H <-. cbn [rng]. split; [|split].
  - intros y Hy. apply H in Hy. subst y. lia.
  - exists x. split; [apply H; reflexivity|reflexivity].
  - exists x. split; [apply H; reflexivity|reflexivity].
Qed.

(** ** Integers *)
Lemma varint_size m v : varint_m m -> v < 2 ^ (8 * N.of_nat m) ->
  1 <= lenN (varint_bytes m v) /\ lenN (varint_bytes m v) <= N.of_nat m + 1.
Proof.
  intros Hm Hv. pose proof (varint_bytes_len m v Hm Hv) as H.
  destruct (varint_bytes_shape m v Hm Hv) as (p & t & E & _). rewrite E in *. cbn [length] in H. rewrite lenN_cons. unfold lenN. lia.
Qed.
Lemma size_u16 v : v < 2 ^ 16 -> 1 <= lenN (enc_u16 v) /\ lenN (enc_u16 v) <= 3.
Proof. intros H. rewrite enc_u16_spec by exact H. apply (varint_size 2 v (or_introl eq_refl) H). Qed.
Lemma size_u32 v : v < 2 ^ 32 -> 1 <= lenN (enc_u32 v) /\ lenN (enc_u32 v) <= 5.
Proof. intros H. rewrite enc_u32_spec by exact H. apply (varint_size 4 v (or_intror (or_introl eq_refl)) H). Qed.
Lemma size_u64 v : v < 2 ^ 64 -> 1 <= lenN (enc_u64 v) /\ lenN (enc_u64 v) <= 9.
Proof. intros H. rewrite enc_u64_spec by exact H. apply (varint_size 8 v (or_intror (or_intror eq_refl)) H). Qed.
Lemma size_word c v : wf_cfg c -> v < 2 ^ usize_bits c -> 1 <= lenN (enc_u64 v) /\ lenN (enc_u64 v) <= word_max c.
Proof.
  intros Hw Hv. pose proof (size_u64 v (lt_usize_64 c v Hw Hv)) as [H1 H2]. split; [exact H1|].
  unfold word_max. destruct (usize_bits_cases c Hw) as [E|E]; rewrite E in *; cbn [N.eqb Pos.eqb]; [|exact H2].
  rewrite enc_u64_spec by (eapply N.lt_trans; [exact Hv|reflexivity]).
  pose proof (varint_bytes_min 8 v 4 (or_intror (or_intror eq_refl)) ltac:(lia)) as H.
  assert (v < 2 ^ (7 * (N.of_nat 4 + 1))) by (eapply N.lt_trans; [exact Hv|reflexivity]).
  specialize (H H0). unfold lenN. lia.
Qed.
(** the largest word *)
Lemma size_word_max c : wf_cfg c -> lenN (enc_u64 (2 ^ usize_bits c - 1)) = word_max c.
Proof. intros Hw. unfold word_max. destruct (usize_bits_cases c Hw) as [-> | ->]; vm_compute; reflexivity. Qed.
Lemma size_index i : i < 16384 -> lenN (enc_u32 i) = index_size i.
Proof.
  intros H. assert (Hi : i < 2 ^ 32) by (eapply N.lt_trans; [exact H|reflexivity]).
  pose proof (size_u32 i Hi) as [L _]. rewrite enc_u32_spec in * by exact Hi.
  pose proof (varint_bytes_length_iff 4 i 0 (or_intror (or_introl eq_refl)) Hi ltac:(lia)) as [A1 A2].
  pose proof (varint_bytes_length_iff 4 i 1 (or_intror (or_introl eq_refl)) Hi ltac:(lia)) as [_ B2].
  change (2 ^ (7 * (N.of_nat 0 + 1))) with 128 in *. change (2 ^ (7 * (N.of_nat 1 + 1))) with 16384 in *.
  specialize (B2 H). unfold index_size, lenN in *. destruct (N.ltb_spec i 128) as [Hs|Hs].
  - specialize (A2 Hs). lia.
  - assert (~ (length (varint_bytes 4 i) <= 0 + 1)%nat) by (intros G; apply A1 in G; lia). lia.
Qed.

(** ** Sizes of values *)
Lemma vsize_wr v bs : ser v = wr bs -> vsize v = lenN bs.
Proof. intros E. unfold vsize. rewrite E. apply wsize_wr. Qed.
Lemma utf8_size ch : 1 <= lenN (utf8 ch) /\ lenN (utf8 ch) <= 4.
Proof.
  split; [|apply utf8_len]. unfold utf8. repeat match goal with |- context [if ?b then _ else _] => destruct b end;
    unfold lenN; cbn [length]; lia.
Qed.

Section Ranges.
  Variable c : cfg.
  Hypothesis Hw : wf_cfg c.
  Hypothesis Hh : 4096 <= heap_limit c.
  Definition ranged (d : dty) : Prop := rng c (fun v => has_ty c d v = true) vsize (size_range c d).

  Lemma typed_ok d v : wf_dty d = true -> has_ty c d v = true -> wresult (ser v) = WeOk.
  Proof. intros H1 H2. exact (proj1 (roundtrip c d v Hw Hh H1 H2)). Qed.

  (** lists of values *)
  Lemma ranged_all ds : forallb wf_dty ds = true -> Forall ranged ds ->
    rng c (Forall2 (fun d v => has_ty c d v = true) ds) (sumN vsize) (range_all (map (size_range c) ds)).
  Proof.
    intros Hwf H. induction H as [|d ds Hd H IH].
    - apply (rng_one c _ _ []); [|reflexivity]. intros l. split; intros E; [inversion E; reflexivity|subst; constructor].
    - cbn [forallb] in Hwf. apply andb_prop in Hwf as [_ Hwf]. specialize (IH Hwf).
      cbn [map range_all fold_right].
      apply (rng_iso c _ _ _ _ (fun xy => fst xy :: snd xy) _ (rng_add c _ _ _ _ _ _ Hd IH)).
      + intros [v l] [H1 H2]. cbn [fst snd] in *. split; [constructor; assumption|reflexivity].
      + intros l Hl. inversion Hl; subst. eexists (_, _). cbn [fst snd]. split; [split; eassumption|reflexivity].
  Qed.
  Lemma vsize_list ds l : forallb wf_dty ds = true -> Forall2 (fun d v => has_ty c d v = true) ds l ->
    wsize (wconcat (map ser l)) = sumN vsize l.
  Proof.
    intros Hwf H. apply wsize_concat. rewrite forallb_forall in Hwf.
    induction H as [|d v ds l H1 H IH]; constructor.
    - apply (typed_ok d); [apply Hwf; left; reflexivity|exact H1].
    - apply IH. intros x Hx; apply Hwf; right; exact Hx.
  Qed.

  Lemma rng_leaf d a b (lo hi : sval) :
    (forall v, has_ty c d v = true -> a <= vsize v /\ vsize v <= b) ->
    has_ty c d lo = true -> vsize lo = a -> has_ty c d hi = true -> vsize hi = b ->
    rng c (fun v => has_ty c d v = true) vsize (Some (a, Some b)).
  Proof. intros H1 H2 H3 H4 H5. split; [exact H1|]. split; [exists lo|exists hi]; auto. Qed.
  (** Unbounded types: a family of values growing with k. *)
  Lemma rng_open d a (lo : sval) (f : N -> sval) :
    (forall v, has_ty c d v = true -> a <= vsize v) -> has_ty c d lo = true -> vsize lo = a ->
    (forall k, k < 2 ^ usize_bits c -> has_ty c d (f k) = true /\ k <= vsize (f k)) ->
    rng c (fun v => has_ty c d v = true) vsize (Some (a, None)).
  Proof.
    intros H1 H2 H3 H4. split; [intros v Hv; split; [exact (H1 v Hv)|exact I]|]. split; [exists lo; auto|].
    intros k Hk. exists (f k). apply H4, Hk.
  Qed.
  Lemma lenN_repeat {A} (x : A) k : lenN (repeat x (N.to_nat k)) = k.
  Proof. unfold lenN. rewrite repeat_length. lia. Qed.
  Lemma ascii_valid k : utf8_valid (repeat 97 k) = true.
  Proof.
    apply utf8_valid_iff. exists (repeat 97 k). split; [|induction k as [|k IH]; [reflexivity|cbn [repeat map concat]; rewrite <- IH; reflexivity]].
    apply Forall_forall. intros x Hx. apply repeat_spec in Hx. subst x. left. reflexivity.
  Qed.
  Lemma str_ok_repeat k : k < 2 ^ usize_bits c -> str_ok c (repeat 97 (N.to_nat k)) = true.
  Proof.
    intros Hk. unfold str_ok, usize_ok. rewrite ascii_valid, lenN_repeat. apply N.ltb_lt in Hk. rewrite Hk. reflexivity.
  Qed.
  Lemma buf_ok_repeat k : k < 2 ^ usize_bits c -> buf_ok c (repeat 97 (N.to_nat k)) = true.
  Proof.
    intros Hk. unfold buf_ok, usize_ok. rewrite lenN_repeat. apply N.ltb_lt in Hk. rewrite Hk, andb_true_r.
    apply bytes_okb_ok. apply Forall_forall. intros x Hx. apply repeat_spec in Hx. subst x. reflexivity.
  Qed.
  Lemma vsize_str bs : vsize (SStr bs) = lenN (enc_u64 (lenN bs)) + lenN bs.
  Proof. apply wsize_str. Qed.
  Lemma vsize_bytes bs : vsize (SBytes bs) = lenN (enc_u64 (lenN bs)) + lenN bs.
  Proof. apply wsize_str. Qed.
  Lemma usize_lt n : usize_ok c n = true -> n < 2 ^ 64.
  Proof. intros H. apply N.ltb_lt in H. exact (lt_usize_64 c n Hw H). Qed.
  Lemma usize_pos : 1 < 2 ^ usize_bits c.
  Proof. destruct (usize_bits_cases c Hw) as [-> | ->]; reflexivity. Qed.
  Lemma vsize_big bs : vsize (big_sval bs) = lenN (enc_u64 (lenN bs)) + lenN bs.
  Proof.
    rewrite <- vsize_vec_u8. unfold vsize at 1. change (wsize (wseq (ser (vec_u8 bs)) WDone) = vsize (vec_u8 bs)).
    rewrite wsize_wseq_ok by (apply ser_vec_u8). unfold vsize. unfold wsize at 2. cbn [wbytes]. rewrite lenN_nil. lia.
  Qed.
  Lemma vec_u8_typed k : k < 2 ^ usize_bits c -> vec_u8_ok c (vec_u8 (repeat 97 (N.to_nat k))) = true.
  Proof. intros Hk. unfold vec_u8_ok. rewrite vec_u8_of_vec_u8. apply buf_ok_repeat, Hk. Qed.

  Lemma ranged_big d : d = DBigUint \/ d = DBigInt -> rng c (fun v => has_ty c d v = true) vsize (Some (1, None)).
  Proof.
    intros Hd. assert (E : forall v, has_ty c d v = match v with SSeq None [v] => vec_u8_ok c v | _ => false end)
      by (destruct Hd as [-> | ->]; reflexivity).
    apply (rng_open d 1 (big_sval []) (fun k => big_sval (repeat 97 (N.to_nat k)))).
    - intros v Hv. rewrite E in Hv. destruct v as [ | | | | | | | | | | | | | | | | | | | | | | |[n|] [|v [|]]| | | | | | | | ]; try discriminate.
      apply (vec_u8_ok_spec c v Hw) in Hv as (bs & -> & Hb & Hl).
      change (SSeq None [vec_u8 bs]) with (big_sval bs). rewrite vsize_big.
      pose proof (size_word c _ Hw Hl). lia.
    - rewrite E. cbn [big_sval]. apply (vec_u8_typed 0). pose proof usize_pos; lia.
    - rewrite vsize_big. reflexivity.
    - intros k Hk. rewrite E. cbn [big_sval]. split; [apply vec_u8_typed, Hk|]. rewrite vsize_big, lenN_repeat. lia.
  Qed.

  (** enums: values of the variants from index i on *)
  Definition alts (i : N) (vs : list (vkind * dty)) (v : sval) : Prop :=
    exists j kd w, pickN vs j = Some kd /\ has_ty c (snd kd) w = true /\ v = variant_sval (fst kd) (i + j) w.
  Lemma alts_nil i v : ~ alts i [] v.
  Proof. intros (j & kd & w & H & _). discriminate. Qed.
  Lemma alts_cons i k d vs v : alts i ((k, d) :: vs) v <->
    (exists w, has_ty c d w = true /\ v = variant_sval k i w) \/ alts (i + 1) vs v.
  Proof.
    split.
    - intros (j & kd & w & H1 & H2 & H3). cbn [pickN] in H1. destruct (N.eqb_spec j 0) as [->|Hj].
      + injection H1 as <-. cbn [fst snd] in *. left. exists w. rewrite N.add_0_r in H3. auto.
      + right. exists (N.pred j), kd, w. split; [|split; [exact H2|]].
        * rewrite <- H1. f_equal; lia.
        * rewrite H3. f_equal; lia.
    - intros [(w & H1 & H2)|(j & kd & w & H1 & H2 & H3)].
      + exists 0, (k, d), w. cbn [pickN]. rewrite N.add_0_r. auto.
      + exists (j + 1), kd, w. split; [|split; [exact H2|]].
        * cbn [pickN]. destruct (N.eqb_spec (j + 1) 0); [lia|]. rewrite <- H1. f_equal; lia.
        * rewrite H3. f_equal; lia.
  Qed.
  Lemma variant_size k d i w : payload_shape k d = true -> wf_dty d = true -> has_ty c d w = true -> i < 16384 ->
    vsize (variant_sval k i w) = index_size i + vsize w.
  Proof.
    intros Hp Hd Ht Hi. pose proof (typed_ok d w Hd Ht) as Hok.
    assert (G : forall x, wsize (wseq (ser_u32 i) x) = index_size i + wsize x).
    { intros x. rewrite wsize_wseq_ok by reflexivity. unfold ser_u32. rewrite wsize_wr, size_index by exact Hi. reflexivity. }
    destruct k, d; try discriminate Hp; cbn [has_ty] in Ht; try (destruct w; try discriminate Ht; cbn [variant_sval]; apply G; fail).
  Qed.
  Lemma ranged_alts vs i : i + lenN vs <= 16384 ->
    Forall (fun kd => payload_shape (fst kd) (snd kd) = true /\ wf_dty (snd kd) = true /\ ranged (snd kd)) vs ->
    rng c (alts i vs) vsize (range_enum i (map (fun kd => size_range c (snd kd)) vs)).
  Proof.
    intros Hn H. revert i Hn; induction H as [|[k d] vs (Hp & Hd & Hr) H IH]; intros i Hn.
    - exact (alts_nil i).
    - cbn [map range_enum fst snd] in *. rewrite lenN_cons in Hn.
      apply (rng_alt c _ _ _ _ _ _ (alts_cons i k d vs)); [|apply IH; lia].
      assert (H1 : rng c (fun u : unit => True) (fun _ => index_size i) (Some (index_size i, Some (index_size i)))).
      { apply (rng_one c _ _ tt); [|reflexivity]. intros []; tauto. }
      apply (rng_iso c _ _ _ _ (fun xy => variant_sval k i (snd xy)) _ (rng_add c _ _ _ _ _ _ H1 Hr)).
      + intros [u w] [_ Hw']. cbn [fst snd] in *. split; [exists w; auto|]. apply (variant_size k d); try assumption; lia.
      + intros v (w & H2 & ->). exists (tt, w). auto.
  Qed.
  Lemma alts_typed vs v : forallb (fun kd => payload_shape (fst kd) (snd kd) && wf_dty (snd kd)) vs = true ->
    has_ty c (DEnum vs) v = true <-> alts 0 vs v.
  Proof.
    intros Hwf. rewrite forallb_forall in Hwf. split.
    - cbn [has_ty]. destruct v; try discriminate; cbv zeta; rewrite pickN_map;
      match goal with |- context [pickN vs ?i] => destruct (pickN vs i) as [[k dp]|] eqn:Hpick; [|discriminate] end;
      cbn [option_map fst snd]; destruct k; try discriminate; intros Ht;
      (eexists _, _, _; split; [exact Hpick|cbn [fst snd]; split; [exact Ht|rewrite N.add_0_l; reflexivity]]).
    - intros (j & [k d] & w & H1 & H2 & ->). cbn [fst snd] in *. rewrite N.add_0_l.
      pose proof (pickN_some _ _ _ H1) as [Hin _]. specialize (Hwf _ Hin). cbn [fst snd] in Hwf.
      apply andb_prop in Hwf as [Hp _].
      destruct k, d; try discriminate Hp; try (cbn [has_ty] in H2; discriminate H2).
      all: try (destruct w; cbn [has_ty] in H2; try discriminate H2); cbn [variant_sval has_ty]; cbv zeta; rewrite pickN_map, H1;
        cbn [option_map fst snd]; try reflexivity; try exact H2.
  Qed.

  Lemma ranged_date : ranged DDate.
  Proof.
    apply (rng_leaf DDate 2 8 (STuple [SI32 0; SU16 0]) (STuple [SI32 (- 2 ^ 31); SU16 65534])).
    - intros v Hv. cbn [has_ty] in Hv.
      destruct v as [ | | | | | | | | | | | | | | | | | | | | | | | |[|[] [|[] [|]]]| | | | | | | ]; try discriminate.
      apply andb_prop in Hv as [Hv _]. apply andb_prop in Hv as [H1 H2]. apply N.ltb_lt in H2.
      unfold vsize. cbn [ser map]. change (wconcat [?a; ?b]) with (wseq a (wseq b WDone)).
      unfold wsize, ser_i32, ser_u16. cbn [wconcat fold_right wr wseq wbytes]. rewrite app_nil_r, lenN_app.
      pose proof (size_u16 n H2). pose proof (size_u32 _ (enc_zigzag_bound 32 z ltac:(lia) H1)). lia.
    - destruct c as [oc ub sb sh hl]. destruct oc; reflexivity.
    - reflexivity.
    - destruct c as [oc ub sb sh hl]. destruct oc; reflexivity.
    - vm_compute. reflexivity.
  Qed.
  Lemma ranged_date_time : ranged DDateTime.
  Proof.
    apply (rng_leaf DDateTime 2 14 (date_time_sval 0 0) (date_time_sval (- 2 ^ 63) (2 ^ 32 - 1))).
    - intros v Hv. cbn [has_ty] in Hv.
      destruct v as [ | | | | | | | | | | | | | | | | | | | | | | | | | | | |[|[a []] [|[b []] [|]]]| | | ]; try discriminate.
      apply andb_prop in Hv as [Hv H2]. apply andb_prop in Hv as [_ H1]. apply N.ltb_lt in H2.
      unfold vsize, wsize. cbn [ser map snd]. unfold ser_i64, ser_u32. cbn [wconcat fold_right wr wseq wbytes]. rewrite app_nil_r, lenN_app.
      pose proof (size_u32 n H2). pose proof (size_u64 _ (enc_zigzag_bound 64 z ltac:(lia) H1)). lia.
    - reflexivity.
    - reflexivity.
    - reflexivity.
    - vm_compute. reflexivity.
  Qed.
  Lemma ranged_decimal : ranged DBigDecimal.
  Proof.
    assert (Hd : forall bs s, bs <> [] -> vsize (SSeq None [vec_u8 bs; SI64 s]) = lenN (enc_u64 (lenN bs)) + lenN bs + lenN (enc_u64 (enc_zigzag 64 s))).
    { intros bs s Hne. unfold vsize at 1. change (wsize (wseq (ser (vec_u8 bs)) (wseq (ser_i64 s) WDone)) = lenN (enc_u64 (lenN bs)) + lenN bs + lenN (enc_u64 (enc_zigzag 64 s))).
      rewrite !wsize_wseq_ok by (first [reflexivity|apply ser_vec_u8]). fold (vsize (vec_u8 bs)). rewrite vsize_vec_u8.
      unfold ser_i64. rewrite wsize_wr. unfold wsize. cbn [wbytes]. rewrite lenN_nil. lia. }
    apply (rng_open DBigDecimal 1 (SSeq None [SU8 0]) (fun k => SSeq None [vec_u8 (repeat 97 (N.to_nat (N.max k 1))); SI64 0])).
    - intros v Hv. cbn [has_ty] in Hv.
      destruct v as [ | | | | | | | | | | | | | | | | | | | | | | |[n|] [|v [|w [|]]]| | | | | | | | ]; try discriminate Hv.
      + destruct v as [ | | | | | |[|]| | | | | | | | | | | | | | | | | | | | | | | | | ]; try discriminate Hv. vm_compute. discriminate.
      + assert (Hw' : exists s, w = SI64 s /\ vec_u8_ok c v = true).
        { destruct v as [ | | | | | |[|]| | | | | | | | | | | | | | | | | | | | | | | | | ]; destruct w; try discriminate Hv;
            apply andb_prop in Hv as [Hv _]; apply andb_prop in Hv as [Hv _]; eexists; split; [reflexivity|exact Hv]. }
        destruct Hw' as (s & -> & Hv'). apply (vec_u8_ok_spec c v Hw) in Hv' as (bs & -> & Hb & Hl).
        destruct bs as [|b bs].
        * exfalso. cbn in Hv. rewrite andb_false_r in Hv. discriminate.
        * rewrite Hd by discriminate. pose proof (size_word c _ Hw Hl). lia.
      + exfalso. destruct v as [ | | | | | |[|]| | | | | | | | | | | | | | | | | | | | | | | | | ]; destruct w; discriminate Hv.
    - reflexivity.
    - reflexivity.
    - intros k Hk. assert (Hm : N.max k 1 < 2 ^ usize_bits c) by (pose proof usize_pos; lia).
      split.
      + cbn [has_ty]. rewrite (vec_u8_typed _ Hm). unfold vec_u8. rewrite lenN_repeat.
        destruct (N.max k 1) eqn:E; [lia|]. reflexivity.
      + rewrite Hd.
        * rewrite lenN_repeat. lia.
        * intros E. apply (f_equal (@lenN N)) in E. rewrite lenN_repeat, lenN_nil in E. lia.
  Qed.

  (** ** Vectors and maps *)
  Lemma vec_typed d v : has_ty c (DVec d) v = true <->
    exists l, v = SSeq (Some (lenN l)) l /\ lenN l < 2 ^ usize_bits c /\ forallb (has_ty c d) l = true.
  Proof.
    cbn [has_ty]. split.
    - destruct v as [ | | | | | | | | | | | | | | | | | | | | | | |[n|] l| | | | | | | | ]; try discriminate. intros H.
      apply andb_prop in H as [H H3]. apply andb_prop in H as [H1 H2]. apply N.eqb_eq in H1. apply N.ltb_lt in H2. subst n.
      exists l. auto.
    - intros (l & -> & H1 & H2). apply N.ltb_lt in H1. unfold usize_ok. rewrite N.eqb_refl, H1, H2. reflexivity.
  Qed.
  Lemma vec_size d l : wf_dty d = true -> forallb (has_ty c d) l = true ->
    vsize (SSeq (Some (lenN l)) l) = lenN (enc_u64 (lenN l)) + sumN vsize l.
  Proof.
    intros Hd Hl. unfold vsize at 1. cbn [ser ser_len]. rewrite wsize_wseq_ok by reflexivity. f_equal; [apply wsize_wr|].
    apply wsize_concat. apply Forall_forall. intros x Hx. rewrite forallb_forall in Hl. apply (typed_ok d); auto.
  Qed.
  Lemma vec_empty d : has_ty c (DVec d) (SSeq (Some 0) []) = true.
  Proof. apply vec_typed. exists []. split; [reflexivity|]. split; [pose proof usize_pos; rewrite lenN_nil; lia|reflexivity]. Qed.
  Lemma vec_repeat d x k : has_ty c d x = true -> k < 2 ^ usize_bits c ->
    forallb (has_ty c d) (repeat x (N.to_nat k)) = true /\
    has_ty c (DVec d) (SSeq (Some (lenN (repeat x (N.to_nat k)))) (repeat x (N.to_nat k))) = true.
  Proof.
    intros Hx Hk. assert (H : forallb (has_ty c d) (repeat x (N.to_nat k)) = true).
    { apply forallb_forall. intros y Hy. apply repeat_spec in Hy. subst y. exact Hx. }
    split; [exact H|]. apply vec_typed. eexists. split; [reflexivity|]. rewrite lenN_repeat. auto.
  Qed.
  Lemma sum_repeat (x : sval) k : sumN vsize (repeat x k) = N.of_nat k * vsize x.
  Proof. induction k as [|k IH]; cbn [repeat sumN]; [lia|]. rewrite IH. lia. Qed.
  Lemma ranged_vec d : wf_dty d = true -> ranged d -> ranged (DVec d).
  Proof.
    intros Hd Hr. unfold ranged in *. cbn [size_range].
    assert (Hopen : forall a b, size_range c d = Some (a, b) -> b <> Some 0 ->
      rng c (fun v => has_ty c (DVec d) v = true) vsize (Some (1, None))).
    { intros a b E Hb. rewrite E in Hr. destruct Hr as (H1 & _ & H3).
      assert (exists x, has_ty c d x = true /\ 1 <= vsize x) as (x & Hx & Hx1).
      { destruct b as [b|].
        - destruct H3 as (x & Hx & Hs). exists x. split; [exact Hx|]. rewrite Hs. destruct b; [congruence|lia].
        - apply (H3 1). apply usize_pos. }
      apply (rng_open (DVec d) 1 (SSeq (Some 0) []) (fun k => SSeq (Some (lenN (repeat x (N.to_nat k)))) (repeat x (N.to_nat k)))).
      - intros v Hv. apply vec_typed in Hv as (l & -> & Hl & Hf). rewrite (vec_size d) by assumption.
        pose proof (size_word c _ Hw Hl). lia.
      - apply vec_empty.
      - reflexivity.
      - intros k Hk. destruct (vec_repeat d x k Hx Hk) as [Hf Ht]. split; [exact Ht|].
        rewrite (vec_size d) by assumption. rewrite sum_repeat.
        assert (N.of_nat (N.to_nat k) * 1 <= N.of_nat (N.to_nat k) * vsize x) by (apply N.mul_le_mono_l; exact Hx1). lia. }
    destruct (size_range c d) as [[a [[|b]|]]|] eqn:E.
    - destruct Hr as (H1 & _ & (x & Hx & Hxs)).
      apply (rng_leaf (DVec d) 1 (word_max c) (SSeq (Some 0) [])
        (SSeq (Some (lenN (repeat x (N.to_nat (2 ^ usize_bits c - 1))))) (repeat x (N.to_nat (2 ^ usize_bits c - 1))))).
      + intros v Hv. apply vec_typed in Hv as (l & -> & Hl & Hf). rewrite (vec_size d) by assumption.
        pose proof (size_word c _ Hw Hl). assert (sumN vsize l = 0); [|lia].
        rewrite forallb_forall in Hf. clear Hl H. induction l as [|y l IH]; [reflexivity|]. cbn [sumN].
        rewrite IH by (intros z Hz; apply Hf; right; exact Hz). destruct (H1 y (Hf y (or_introl eq_refl))). lia.
      + apply vec_empty.
      + reflexivity.
      + apply vec_repeat; [exact Hx|]. pose proof usize_pos; lia.
      + rewrite (vec_size d); [|exact Hd|apply vec_repeat; [exact Hx|pose proof usize_pos; lia]].
        rewrite sum_repeat, Hxs, lenN_repeat, size_word_max by exact Hw. lia.
    - exact (Hopen _ _ eq_refl ltac:(discriminate)).
    - exact (Hopen _ _ eq_refl ltac:(discriminate)).
    - apply (rng_one c _ _ (SSeq (Some 0) [])); [|reflexivity]. intros v. split.
      + intros Hv. apply vec_typed in Hv as (l & -> & _ & Hf). destruct l as [|x l]; [reflexivity|].
        cbn [forallb] in Hf. apply andb_prop in Hf as [Hx _]. destruct (Hr x Hx).
      + intros ->. apply vec_empty.
  Qed.
  Lemma map_typed d v : has_ty c (DMap d) v = true -> exists m,
    v = SMap (Some (lenN m)) (map (fun kv => (SStr (fst kv), snd kv)) m) /\ lenN m < 2 ^ usize_bits c /\
    Forall (fun kv => has_ty c d (snd kv) = true) m.
  Proof.
    cbn [has_ty]. destruct v as [ | | | | | | | | | | | | | | | | | | | | | | | | | | |[n|] l| | | | ]; try discriminate.
    destruct (strkeys l) as [m|] eqn:E; [|discriminate]. intros H.
    apply andb_prop in H as [H H4]. apply andb_prop in H as [H H3]. apply andb_prop in H as [H1 H2].
    apply N.eqb_eq in H1. apply N.ltb_lt in H2. subst n. apply strkeys_spec in E. subst l. rewrite lenN_map in *.
    exists m. split; [reflexivity|]. split; [exact H2|]. apply Forall_forall. intros kv Hkv.
    rewrite forallb_forall in H4. specialize (H4 kv Hkv). apply andb_prop in H4. tauto.
  Qed.
  Lemma map_size d v : wf_dty d = true -> has_ty c (DMap d) v = true -> 1 <= vsize v.
  Proof.
    intros Hd Hv. apply map_typed in Hv as (m & -> & Hm & _). unfold vsize. cbn [ser ser_len]. rewrite wsize_wseq_ok by reflexivity.
    unfold ser_u64. rewrite wsize_wr. pose proof (size_word c _ Hw Hm). lia.
  Qed.
  Lemma ranged_map d : wf_dty d = true -> ranged d -> ranged (DMap d).
  Proof.
    intros Hd Hr. unfold ranged in *. cbn [size_range].
    assert (H0 : has_ty c (DMap d) (SMap (Some 0) []) = true).
    { cbn [has_ty strkeys sorted_keys forallb]. pose proof usize_pos as H. unfold usize_ok.
      assert (H' : (0 <? 2 ^ usize_bits c) = true) by (apply N.ltb_lt; lia). rewrite H'. reflexivity. }
    destruct (size_range c d) as [[a b]|] eqn:E.
    - destruct Hr as (_ & (x & Hx & _) & _).
      apply (rng_open (DMap d) 1 (SMap (Some 0) []) (fun k => SMap (Some 1) [(SStr (repeat 97 (N.to_nat k)), x)])).
      + intros v Hv. exact (map_size d v Hd Hv).
      + exact H0.
      + reflexivity.
      + intros k Hk. split.
        * cbn [has_ty strkeys strkey sorted_keys forallb fst snd]. rewrite str_ok_repeat, Hx by exact Hk.
          unfold usize_ok. rewrite (proj2 (N.ltb_lt _ _) usize_pos). reflexivity.
        * unfold vsize. cbn [ser ser_len]. rewrite wsize_wseq_ok by reflexivity. cbn [map wconcat fold_right fst snd ser_key].
          assert (Hs : wresult (ser_str (repeat 97 (N.to_nat k))) = WeOk) by reflexivity.
          rewrite (wsize_wseq_ok (wseq _ _)) by (rewrite wresult_wseq, Hs; exact (typed_ok d x Hd Hx)).
          rewrite (wsize_wseq_ok (ser_str _)) by exact Hs. rewrite wsize_str, lenN_repeat. lia.
    - apply (rng_one c _ _ (SMap (Some 0) [])); [|reflexivity]. intros v. split.
      + intros Hv. apply map_typed in Hv as (m & -> & _ & Hf). destruct Hf as [|kv m Hx _]; [reflexivity|]. destruct (Hr _ Hx).
      + intros ->. exact H0.
  Qed.

  Lemma rng_tuple (mk : list sval -> sval) ds d : forallb wf_dty ds = true -> Forall ranged ds ->
    (forall l, ser (mk l) = wconcat (map ser l)) ->
    (forall v, has_ty c d v = true <-> exists l, v = mk l /\ Forall2 (fun d v => has_ty c d v = true) ds l) ->
    rng c (fun v => has_ty c d v = true) vsize (range_all (map (size_range c) ds)).
  Proof.
    intros Hwf Hr Hs Ht. apply (rng_iso c _ _ _ _ mk _ (ranged_all ds Hwf Hr)).
    - intros l Hl. split; [apply Ht; eauto|]. unfold vsize at 1. rewrite Hs. apply (vsize_list ds); assumption.
    - intros v Hv. apply Ht in Hv as (l & -> & Hl). eauto.
  Qed.
  Lemma struct_typed keys fs v : has_ty c (DStruct keys fs) v = true <->
    exists l, v = SStruct (combine (map fst fs) l) /\ Forall2 (fun d v => has_ty c d v = true) (map snd fs) l.
  Proof.
    cbn [has_ty]. split.
    - destruct v; try discriminate. intros H.
      apply (forall2b_Forall2 (fun nf kv => String.eqb (fst nf) (fst kv) && has_ty c (snd nf) (snd kv))) in H.
      exists (map snd l). induction H as [|nf kv fs l H1 H IH]; [split; [reflexivity|constructor]|].
      destruct IH as [IH1 IH2]. apply andb_prop in H1 as [H1 H2]. apply String.eqb_eq in H1.
      cbn [map combine]. injection IH1 as <-. rewrite H1. destruct kv; cbn [fst snd] in *. split; [reflexivity|constructor; assumption].
    - intros (l & -> & H).
      apply (forall2b_Forall2 (fun nf kv => String.eqb (fst nf) (fst kv) && has_ty c (snd nf) (snd kv))).
      revert l H; induction fs as [|[n d] fs IH]; intros l H; inversion H; subst; cbn [map combine]; constructor.
      + cbn [fst snd] in *. rewrite String.eqb_refl. assumption.
      + apply IH. assumption.
  Qed.
  Lemma combine_map_ser {A} (ks : list A) l : length ks = length l ->
    wconcat (map (fun kv => ser (snd kv)) (combine ks l)) = wconcat (map ser l).
  Proof.
    intros H. f_equal. revert l H; induction ks as [|k ks IH]; intros [|x l] H; try discriminate; [reflexivity|].
    cbn [combine map snd]. f_equal. apply IH. injection H as H. exact H.
  Qed.

  Lemma leaf1 d lo : (forall v, has_ty c d v = true -> vsize v = vsize lo) -> has_ty c d lo = true ->
    rng c (fun v => has_ty c d v = true) vsize (Some (vsize lo, Some (vsize lo))).
  Proof. intros H1 H2. apply (rng_leaf d _ _ lo lo); auto. intros v Hv. rewrite (H1 v Hv). lia. Qed.

  Ltac vs := unfold vsize; cbn [ser]; unfold ser_u16, ser_u32, ser_u64, ser_i16, ser_i32, ser_i64; rewrite ?wsize_wr.
  Ltac val Hv := match type of Hv with has_ty _ _ ?v = true => cbn [has_ty] in Hv; destruct v; try discriminate Hv end.
  Ltac leaf := first [reflexivity | vm_compute; reflexivity].
  Theorem ranged_dty d : wf_dty d = true -> ranged d.
  Proof.
    induction d using dty_ind2; intros Hd; try discriminate Hd; unfold ranged; cbn [size_range].
    - apply (leaf1 DBool (SBool true)); [|reflexivity]. intros v Hv; val Hv. reflexivity.
    - apply (leaf1 DI8 (SI8 0)); [|reflexivity]. intros v Hv; val Hv. reflexivity.
    - apply (rng_leaf DI16 1 3 (SI16 0) (SI16 (- 2 ^ 15))); [|leaf..]. intros v Hv; val Hv.
      vs. apply size_u16, enc_zigzag_bound; [lia|exact Hv].
    - apply (rng_leaf DI32 1 5 (SI32 0) (SI32 (- 2 ^ 31))); [|leaf..]. intros v Hv; val Hv.
      vs. apply size_u32, enc_zigzag_bound; [lia|exact Hv].
    - apply (rng_leaf DI64 1 9 (SI64 0) (SI64 (- 2 ^ 63))); [|leaf..]. intros v Hv; val Hv.
      vs. apply size_u64, enc_zigzag_bound; [lia|exact Hv].
    - apply (leaf1 DU8 (SU8 0)); [|reflexivity]. intros v Hv; val Hv. reflexivity.
    - apply (rng_leaf DU16 1 3 (SU16 0) (SU16 (2 ^ 16 - 1))); [|leaf..]. intros v Hv; val Hv.
      vs. apply size_u16, N.ltb_lt, Hv.
    - apply (rng_leaf DU32 1 5 (SU32 0) (SU32 (2 ^ 32 - 1))); [|leaf..]. intros v Hv; val Hv.
      vs. apply size_u32, N.ltb_lt, Hv.
    - apply (rng_leaf DU64 1 9 (SU64 0) (SU64 (2 ^ 64 - 1))); [|leaf..]. intros v Hv; val Hv.
      vs. apply size_u64, N.ltb_lt, Hv.
    - apply (rng_leaf DIsize 1 (word_max c) (SI64 0) (SI64 (- 2 ^ (Z.of_N (usize_bits c) - 1)))).
      + intros v Hv; val Hv. vs. apply (size_word c _ Hw).
        assert (H64 : in_s 64 z = true).
        { destruct (usize_bits_cases c Hw) as [E|E]; rewrite E in Hv; [|exact Hv].
          apply (in_s_mono 32 64); [lia|lia|exact Hv]. }
        rewrite enc_zigzag_spec; [|lia|exact H64].
        apply zigzag_bound; [destruct (usize_bits_cases c Hw) as [-> | ->]; lia|exact Hv].
      + cbn [has_ty]. destruct (usize_bits_cases c Hw) as [-> | ->]; reflexivity.
      + reflexivity.
      + cbn [has_ty]. destruct (usize_bits_cases c Hw) as [-> | ->]; reflexivity.
      + unfold word_max. destruct (usize_bits_cases c Hw) as [-> | ->]; vm_compute; reflexivity.
    - apply (rng_leaf DUsize 1 (word_max c) (SU64 0) (SU64 (2 ^ usize_bits c - 1))).
      + intros v Hv; val Hv. vs. apply (size_word c _ Hw), N.ltb_lt, Hv.
      + cbn [has_ty]. apply N.ltb_lt. pose proof usize_pos; lia.
      + reflexivity.
      + cbn [has_ty]. apply N.ltb_lt. pose proof usize_pos; lia.
      + vs. apply size_word_max, Hw.
    - apply (leaf1 DF32 (SF32 0)); [|reflexivity]. intros v Hv; val Hv. vs. rewrite !lenN_le_bytes. reflexivity.
    - apply (leaf1 DF64 (SF64 0)); [|reflexivity]. intros v Hv; val Hv. vs. rewrite !lenN_le_bytes. reflexivity.
    - apply (rng_leaf DChar 2 5 (SChar 0) (SChar 65536)); [|leaf..]. intros v Hv; val Hv.
      assert (Hs : c0 < 1114112) by (unfold is_scalar in Hv; lia). unfold vsize. cbn [ser]. rewrite wsize_str, char_utf8_spec by exact Hs.
      pose proof (utf8_size c0) as [L1 L2].
      assert (lenN (enc_u64 (lenN (utf8 c0))) = 1); [|lia].
      rewrite enc_u64_spec by (eapply N.le_lt_trans; [exact L2|reflexivity]).
      pose proof (varint_bytes_length_iff 8 (lenN (utf8 c0)) 0 (or_intror (or_intror eq_refl)) ltac:(eapply N.le_lt_trans; [exact L2|reflexivity]) ltac:(lia)) as [_ A2].
      change (2 ^ (7 * (N.of_nat 0 + 1))) with 128 in A2. specialize (A2 ltac:(lia)).
      pose proof (varint_size 8 (lenN (utf8 c0)) (or_intror (or_intror eq_refl)) ltac:(eapply N.le_lt_trans; [exact L2|reflexivity])) as [A3 _].
      unfold lenN in *. lia.
    - apply (rng_open DString 1 (SStr []) (fun k => SStr (repeat 97 (N.to_nat k)))).
      + intros v Hv; val Hv. unfold str_ok in Hv. apply andb_prop in Hv as [_ Hv]. rewrite vsize_str.
        pose proof (size_u64 _ (usize_lt _ Hv)). lia.
      + apply (str_ok_repeat 0). pose proof usize_pos; lia.
      + reflexivity.
      + intros k Hk. split; [apply str_ok_repeat, Hk|]. rewrite vsize_str, lenN_repeat. lia.
    - apply (rng_open DByteBuf 1 (SBytes []) (fun k => SBytes (repeat 97 (N.to_nat k)))).
      + intros v Hv; val Hv. unfold buf_ok in Hv. apply andb_prop in Hv as [_ Hv]. rewrite vsize_bytes.
        pose proof (size_u64 _ (usize_lt _ Hv)). lia.
      + apply (buf_ok_repeat 0). pose proof usize_pos; lia.
      + reflexivity.
      + intros k Hk. split; [apply buf_ok_repeat, Hk|]. rewrite vsize_bytes, lenN_repeat. lia.
    - cbn [wf_dty] in Hd. specialize (IHd Hd).
      apply (rng_alt c (fun v => v = SNone) (fun v => exists w, has_ty c d w = true /\ v = SSome w)).
      + intros v. cbn [has_ty]. split.
        * destruct v; try discriminate; eauto.
        * intros [-> | (w & Hv & ->)]; [reflexivity|exact Hv].
      + apply (rng_one c _ _ SNone); [tauto|reflexivity].
      + assert (H1 : rng c (fun u : unit => True) (fun _ => 1) (Some (1, Some 1))).
        { apply (rng_one c _ _ tt); [|reflexivity]. intros []; tauto. }
        apply (rng_iso c _ _ _ _ (fun xy => SSome (snd xy)) _ (rng_add c _ _ _ _ _ _ H1 IHd)).
        * intros [u w] [_ Ht]. cbn [fst snd] in *. split; [eauto|]. unfold vsize at 1. cbn [ser]. rewrite wsize_wseq_ok by reflexivity. reflexivity.
        * intros v (w & Ht & ->). exists (tt, w). auto.
    - apply (leaf1 DUnit SUnit); [|reflexivity]. intros v Hv; val Hv. reflexivity.
    - apply (leaf1 DUnitStruct SUnitStruct); [|reflexivity]. intros v Hv; val Hv. reflexivity.
    - cbn [wf_dty] in Hd. specialize (IHd Hd). apply (rng_iso c _ _ _ _ SNewtypeStruct _ IHd).
      + intros x Hx. split; [exact Hx|reflexivity].
      + intros v Hv; val Hv. eauto.
    - cbn [wf_dty] in Hd. exact (ranged_vec d Hd (IHd Hd)).
    - cbn [wf_dty] in Hd. assert (HF : Forall ranged ds).
      { clear -H Hd. rewrite forallb_forall in Hd. rewrite Forall_forall in *. auto. }
      apply (rng_tuple STuple ds (DTuple ds) Hd HF); [reflexivity|]. intros v. cbn [has_ty]. split.
      + destruct v; try discriminate. intros Hv. apply (forall2b_Forall2 (has_ty c)) in Hv. eauto.
      + intros (l & -> & Hl). apply (forall2b_Forall2 (has_ty c)), Hl.
    - cbn [wf_dty] in Hd. assert (HF : Forall ranged ds).
      { clear -H Hd. rewrite forallb_forall in Hd. rewrite Forall_forall in *. auto. }
      apply (rng_tuple STupleStruct ds (DTupleStruct ds) Hd HF); [reflexivity|]. intros v. cbn [has_ty]. split.
      + destruct v; try discriminate. intros Hv. apply (forall2b_Forall2 (has_ty c)) in Hv. eauto.
      + intros (l & -> & Hl). apply (forall2b_Forall2 (has_ty c)), Hl.
    - cbn [wf_dty] in Hd. exact (ranged_map d Hd (IHd Hd)).
    - cbn [wf_dty] in Hd. apply andb_prop in Hd as [_ Hd].
      assert (Hwf : forallb wf_dty (map snd fs) = true).
      { clear -Hd. rewrite forallb_forall in *. intros x Hx. apply in_map_iff in Hx as (nf & <- & Hin). auto. }
      assert (HF : Forall ranged (map snd fs)).
      { clear -H Hd. apply Forall_map. rewrite forallb_forall in Hd. rewrite Forall_forall in *. auto. }
      rewrite <- (map_map snd (size_range c)).
      apply (rng_iso c _ _ _ _ (fun l => SStruct (combine (map fst fs) l)) _ (ranged_all _ Hwf HF)).
      + intros l Hl. split; [apply struct_typed; eauto|]. unfold vsize at 1. cbn [ser].
        rewrite combine_map_ser by (rewrite <- (Forall2_length _ _ _ Hl), !map_length; reflexivity).
        apply (vsize_list (map snd fs)); assumption.
      + intros v Hv. apply struct_typed in Hv as (l & -> & Hl). eauto.
    - cbn [wf_dty] in Hd. apply andb_prop in Hd as [Hn Hd]. apply N.leb_le in Hn.
      apply (rng_iso c (alts 0 vs) vsize _ _ (fun v => v)).
      + apply ranged_alts; [lia|]. clear -H Hd. rewrite forallb_forall in Hd. rewrite Forall_forall in *.
        intros kd Hin. specialize (Hd kd Hin). apply andb_prop in Hd as [H1 H2]. auto.
      + intros v Hv. split; [apply alts_typed; assumption|reflexivity].
      + intros v Hv. exists v. split; [apply alts_typed; assumption|reflexivity].
    - apply ranged_big; auto.
    - apply ranged_big; auto.
    - apply ranged_decimal.
    - apply ranged_date.
    - apply ranged_date_time.
  Qed.
End Ranges.
