(** * The serializer writes exactly what [SpecOutput] says. *)
From Coq Require Import String.
From Verif Require Import Base BaseFacts Varint PrimFacts VarintFacts ZigZagFacts Utf8 Utf8Facts Serde Typing SerdeProps SpecVarint SpecUtf8
  Header Body SpecBody BodyFacts SerdeFacts SerdeMore MapFacts SpecOutput SpecAccept WireBytes RecFacts.
From Coq Require Import Lia ZifyBool ZifyNat ZifyN.
Local Open Scope list_scope.
Local Open Scope N_scope.

Scheme output_mut := Induction for output Sort Prop
  with outputs_mut := Induction for outputs Sort Prop
  with output_entries_mut := Induction for output_entries Sort Prop.
Combined Scheme output_all_ind from output_mut, outputs_mut, output_entries_mut.

(** The trace w writes u and ends with r. *)
Definition traced (w : wprog) (u : list N) (r : wend) : Prop := wbytes w = u /\ wresult w = r.

Lemma traced_wr bs : traced (wr bs) bs WeOk.
Proof. split; [apply app_nil_r|reflexivity]. Qed.
Lemma traced_seq a b u w r : traced a u WeOk -> traced b w r -> traced (wseq a b) (u ++ w) r.
Proof.
  intros [<- E] [<- <-]. split; [apply wbytes_wseq_done, E|]. rewrite wresult_wseq, E. reflexivity.
Qed.
Lemma traced_stop a b u r : traced a u r -> r <> WeOk -> traced (wseq a b) u r.
Proof.
  unfold traced. revert u; induction a as [|e|p|bs k IH]; intros u [<- E] Hr; cbn [wseq wbytes wresult] in *; auto; [congruence|].
  destruct (IH (wbytes k) (conj eq_refl E) Hr) as [-> ->]. auto.
Qed.
Lemma traced_u32 n : n < 2 ^ 32 -> traced (ser_u32 n) (varint_bytes 4 n) WeOk.
Proof. intros H. unfold ser_u32. rewrite enc_u32_spec by exact H. apply traced_wr. Qed.
Lemma traced_u64 n : n < 2 ^ 64 -> traced (ser_u64 n) (varint_bytes 8 n) WeOk.
Proof. intros H. unfold ser_u64. rewrite enc_u64_spec by exact H. apply traced_wr. Qed.
Lemma traced_text bs : lenN bs < 2 ^ 64 -> traced (ser_str bs) (text bs) WeOk.
Proof. intros H. apply traced_seq; [apply traced_u64, H|apply traced_wr]. Qed.
Lemma traced_len len : match len with Some n => n < 2 ^ 64 | None => True end -> traced (ser_len len) (announced len) WeOk.
Proof. destruct len; [apply traced_u64|intros _; split; reflexivity]. Qed.
Lemma byte8_spec z : (- 2 ^ 7 <= z < 2 ^ 7)%Z -> i8_byte z = byte8 z.
Proof.
  unfold i8_byte, as_u, byte8. change (2 ^ Z.of_N 8)%Z with 256%Z. change (2 ^ 7)%Z with 128%Z. intros H.
  destruct (Z.ltb_spec z 0).
  - replace z with (z + 256 + (-1) * 256)%Z at 1 by lia. rewrite Z_mod_plus_full, Z.mod_small by lia. reflexivity.
  - rewrite Z.mod_small by lia. reflexivity.
Qed.
Lemma zig_ok w z : 1 <= w -> (- 2 ^ (Z.of_N w - 1) <= z < 2 ^ (Z.of_N w - 1))%Z -> enc_zigzag w z = zigzag z /\ zigzag z < 2 ^ w.
Proof.
  intros Hw H. apply in_s_iff in H. pose proof (enc_zigzag_spec w z Hw H) as E. split; [exact E|].
  apply zigzag_bound; assumption.
Qed.
Lemma utf8_len c : lenN (utf8 c) < 2 ^ 64.
Proof. unfold utf8. repeat match goal with |- context [if ?b then _ else _] => destruct b end; reflexivity. Qed.

Lemma rep_list l : fold_right (fun x P => representable x /\ P) True l <-> Forall representable l.
Proof.
  induction l as [|x l IH]; cbn [fold_right]; [split; [constructor|auto]|]. rewrite Forall_cons_iff, IH. reflexivity.
Qed.
Lemma rep_fields (l : list (string * sval)) : fold_right (fun kv P => representable (snd kv) /\ P) True l <-> Forall representable (map snd l).
Proof.
  induction l as [|x l IH]; cbn [fold_right map]; [split; [constructor|auto]|]. rewrite Forall_cons_iff, IH. reflexivity.
Qed.
Lemma rep_entries l : fold_right (fun kv P => (representable (fst kv) /\ representable (snd kv)) /\ P) True l <->
  Forall (fun kv => representable (fst kv) /\ representable (snd kv)) l.
Proof.
  induction l as [|x l IH]; cbn [fold_right]; [split; [constructor|auto]|]. rewrite Forall_cons_iff, IH. reflexivity.
Qed.

Lemma traced_key k r : bad_key k r -> traced (ser_key k) [] r /\ r <> WeOk.
Proof.
  destruct 1 as [| | | |k H1 H2 H3 H4 H5]; try (split; [split; reflexivity|discriminate]).
  split; [|discriminate]. destruct k; try (split; reflexivity);
    [destruct (H2 _ eq_refl)|destruct (H3 _ eq_refl)|destruct (H1 _ eq_refl)|destruct (H4 _ eq_refl)|destruct (H5 eq_refl)].
Qed.

Lemma output_traced_all :
  (forall v u r, output v u r -> representable v -> traced (ser v) u r) /\
  (forall l u r, outputs l u r -> Forall representable l -> traced (wconcat (map ser l)) u r) /\
  (forall l u r, output_entries l u r -> Forall (fun kv => representable (fst kv) /\ representable (snd kv)) l ->
    traced (wconcat (map (fun kv => wseq (ser_key (fst kv)) (ser (snd kv))) l)) u r).
Proof.
  apply output_all_ind; cbn [representable]; intros; rewrite ?rep_list, ?rep_fields, ?rep_entries in *.
  all: cbn [ser]; try (split; reflexivity).
  - rewrite byte8_spec by assumption. apply traced_wr.
  - unfold ser_i16. destruct (zig_ok 16 z) as [-> Hz]; [discriminate|assumption|]. rewrite enc_u16_spec by exact Hz. apply traced_wr.
  - unfold ser_i32. destruct (zig_ok 32 z) as [-> Hz]; [discriminate|assumption|]. rewrite enc_u32_spec by exact Hz. apply traced_wr.
  - unfold ser_i64. destruct (zig_ok 64 z) as [-> Hz]; [discriminate|assumption|]. rewrite enc_u64_spec by exact Hz. apply traced_wr.
  - unfold ser_u16. rewrite enc_u16_spec by assumption. apply traced_wr.
  - apply traced_u32; assumption.
  - apply traced_u64; assumption.
  - rewrite le_bytes_digits. apply traced_wr.
  - rewrite le_bytes_digits. apply traced_wr.
  - rewrite char_utf8_spec by (unfold scalar in *; lia). apply traced_text, utf8_len.
  - apply traced_text; assumption.
  - apply traced_text; assumption.
  - apply (traced_seq _ _ [1]); [apply traced_wr|auto].
  - apply traced_u32; assumption.
  - auto.
  - destruct H0. apply traced_seq; [apply traced_u32; assumption|auto].
  - destruct H0 as [H1 H2]. apply traced_seq; [apply traced_len; assumption|auto].
  - auto.
  - auto.
  - destruct H0 as [H1 H2]. apply traced_seq; [apply traced_u32; assumption|auto].
  - destruct H0 as [H1 H2]. apply traced_seq; [apply traced_len; assumption|auto].
  - rewrite map_map in H. auto.
  - destruct H0 as [H1 H2]. rewrite map_map in H. apply traced_seq; [apply traced_u32; assumption|auto].
  - apply Forall_cons_iff in H1 as [H1 H2]. cbn [map]. apply traced_seq; auto.
  - apply Forall_cons_iff in H0 as [H0 H1]. cbn [map]. apply traced_stop; auto.
  - apply Forall_cons_iff in H1 as [[H1 H2] H3]. cbn [map fst snd representable] in *. rewrite app_assoc. apply traced_seq; [|auto].
    apply traced_seq; [apply traced_text; assumption|auto].
  - apply Forall_cons_iff in H0 as [[H1 H2] H3]. cbn [map fst snd representable] in *. apply traced_stop; [|assumption].
    apply traced_seq; [apply traced_text; assumption|auto].
  - apply traced_key in b as [Hk Hr]. cbn [map fst snd]. apply traced_stop; [|assumption]. apply traced_stop; assumption.
Qed.

Lemma wend_dec (r : wend) : r = WeOk \/ r <> WeOk.
Proof. destruct r; [left; reflexivity|right; discriminate|right; discriminate]. Qed.
Lemma bad_key_total k : (exists bs, k = SStr bs) \/ exists r, bad_key k r.
Proof.
  destruct k; try (right; eexists; constructor 5; intros; discriminate); [right|right|left|right|right]; eexists; constructor.
Qed.
Lemma outputs_total l : Forall (fun v => exists u r, output v u r) l -> exists u r, outputs l u r.
Proof.
  induction 1 as [|v l (u & r & Hv) _ (w & r' & Hl)]; [do 2 eexists; constructor|].
  destruct (wend_dec r) as [->|Hr]; do 2 eexists; [eapply os_cons; eassumption|eapply os_stop; eassumption].
Qed.
Lemma entries_total l : Forall (fun kv => (exists u r, output (fst kv) u r) /\ exists u r, output (snd kv) u r) l ->
  exists u r, output_entries l u r.
Proof.
  induction 1 as [|[k v] l [_ (u & r & Hv)] _ (w & r' & Hl)]; [do 2 eexists; constructor|]. cbn [snd] in Hv.
  destruct (bad_key_total k) as [(bs & ->)|(rk & Hk)]; [|do 2 eexists; eapply oe_key; exact Hk].
  destruct (wend_dec r) as [->|Hr]; do 2 eexists; [eapply oe_cons; eassumption|eapply oe_stop; eassumption].
Qed.
Lemma fields_total (l : list (string * sval)) : Forall (fun kv => exists u r, output (snd kv) u r) l ->
  exists u r, outputs (map snd l) u r.
Proof. intros H. apply outputs_total. apply Forall_map, H. Qed.
Lemma output_total v : exists u r, output v u r.
Proof.
  revert v; apply sval_ind2.
  - intros v; destruct v; try exact I; do 2 eexists; constructor.
  - intros v (u & r & H). do 2 eexists; constructor; exact H.
  - intros v (u & r & H). do 2 eexists; constructor; exact H.
  - intros i v (u & r & H). do 2 eexists; constructor; exact H.
  - intros n l H. apply outputs_total in H as (u & r & H). do 2 eexists; constructor; exact H.
  - intros l H. apply outputs_total in H as (u & r & H). do 2 eexists; constructor; exact H.
  - intros l H. apply outputs_total in H as (u & r & H). do 2 eexists; constructor; exact H.
  - intros i l H. apply outputs_total in H as (u & r & H). do 2 eexists; constructor; exact H.
  - intros n l H. apply entries_total in H as (u & r & H). do 2 eexists; constructor; exact H.
  - intros l H. apply fields_total in H as (u & r & H). do 2 eexists; constructor; exact H.
  - intros i l H. apply fields_total in H as (u & r & H). do 2 eexists; constructor; exact H.
Qed.
Lemma output_iff v u r : representable v -> (output v u r <-> wbytes (ser v) = u /\ wresult (ser v) = r).
Proof.
  intros Hv. split; [intros H; apply (proj1 output_traced_all v u r H Hv)|]. intros [<- <-].
  destruct (output_total v) as (u & r & H). destruct (proj1 output_traced_all v u r H Hv) as [-> ->]. exact H.
Qed.

(** ** Bodies *)
Scheme body_output_mut := Induction for body_output Sort Prop
  with body_outputs_mut := Induction for body_outputs Sort Prop
  with body_entries_output_mut := Induction for body_entries_output Sort Prop.
Combined Scheme body_output_all_ind from body_output_mut, body_outputs_mut, body_entries_output_mut.

Lemma in_s_range w z : in_s w z = true -> (- 2 ^ (Z.of_N w - 1) <= z < 2 ^ (Z.of_N w - 1))%Z.
Proof. apply in_s_iff. Qed.
Lemma traced_i32 z : (- 2 ^ 31 <= z < 2 ^ 31)%Z -> traced (ser (SI32 z)) (varint_bytes 4 (zigzag z)) WeOk.
Proof. intros H. apply (proj1 output_traced_all); [constructor|exact H]. Qed.
Lemma traced_i64 z : (- 2 ^ 63 <= z < 2 ^ 63)%Z -> traced (ser (SI64 z)) (varint_bytes 8 (zigzag z)) WeOk.
Proof. intros H. apply (proj1 output_traced_all); [constructor|exact H]. Qed.
Lemma traced_u16 n : n < 2 ^ 16 -> traced (ser (SU16 n)) (varint_bytes 2 n) WeOk.
Proof. intros H. apply (proj1 output_traced_all); [constructor|exact H]. Qed.

Lemma traced_year c y u r : in_s 32 y = true -> year_output c y u r ->
  traced (ser (match arith_s c 32 (y - YEAR_OFFSET) with Some z => SI32 z | None => SPanic POverflow end)) u r.
Proof.
  intros Hy H. apply in_s_range in Hy. change (Z.of_N 32 - 1)%Z with 31%Z in Hy. unfold arith_s, YEAR_OFFSET.
  assert (HF : (y - 2000 < - 2 ^ 31)%Z -> in_s 32 (y - 2000) = false).
  { intros Hn. destruct (in_s 32 (y - 2000)) eqn:E; [|reflexivity]. apply in_s_range in E. change (Z.of_N 32 - 1)%Z with 31%Z in E. lia. }
  destruct H as [Hp|Hn Hc|Hn Hc].
  - replace (in_s 32 (y - 2000)) with true; [apply traced_i32; lia|]. symmetry. apply in_s_iff. change (Z.of_N 32 - 1)%Z with 31%Z. lia.
  - rewrite (HF Hn), Hc. unfold wrap_s. change (Z.of_N 32 - 1)%Z with 31%Z. change (2 ^ Z.of_N 32)%Z with 4294967296%Z.
    change (2 ^ 31)%Z with 2147483648%Z in *. change (2 ^ 32)%Z with 4294967296%Z.
    replace ((y - 2000 + 2147483648) mod 4294967296 - 2147483648)%Z with (y - 2000 + 4294967296)%Z.
    + apply traced_i32. change (2 ^ 31)%Z with 2147483648%Z. lia.
    + replace (y - 2000 + 2147483648)%Z with (y - 2000 + 2147483648 + 4294967296 + (-1) * 4294967296)%Z by lia.
      rewrite Z_mod_plus_full, Z.mod_small by lia. lia.
  - rewrite (HF Hn), Hc. split; reflexivity.
Qed.
Lemma traced_day c o u r : o < 2 ^ 16 -> day_output c o u r ->
  traced (ser (match arith_u c 16 (Z.of_N o - Z.of_N ORDINAL_OFFSET) with Some n => SU16 n | None => SPanic POverflow end)) u r.
Proof.
  intros Ho H. unfold arith_u, ORDINAL_OFFSET. change (2 ^ Z.of_N 16)%Z with 65536%Z. change (2 ^ 16) with 65536 in Ho.
  destruct H as [o|Hc|Hc].
  - replace ((0 <=? Z.of_N (o + 1) - Z.of_N 1) && (Z.of_N (o + 1) - Z.of_N 1 <? 65536))%Z with true by lia.
    replace (Z.to_N (Z.of_N (o + 1) - Z.of_N 1)) with o by lia. apply traced_u16. change (2 ^ 16) with 65536. lia.
  - rewrite Hc. apply (traced_u16 65535). reflexivity.
  - rewrite Hc. split; reflexivity.
Qed.

Lemma body_output_traced_all c : wf_cfg c ->
  (forall b u r, body_output c b u r -> body_ok c b = true -> traced (ser (body_sval c b)) u r) /\
  (forall l u r, body_outputs c l u r -> forallb (body_ok c) l = true -> traced (wconcat (map ser (map (body_sval c) l))) u r) /\
  (forall m u r, body_entries_output c m u r -> forallb (fun kv => str_ok c (fst kv)) m = true ->
    forallb (fun kv => body_ok c (snd kv)) m = true ->
    traced (wconcat (map (fun kv => wseq (ser_key (fst kv)) (ser (snd kv))) (map (fun kv => (SStr (fst kv), body_sval c (snd kv))) m))) u r).
Proof.
  intros Hw. assert (HL : forall n, usize_ok c n = true -> n < 2 ^ 64).
  { intros n Hn. apply (lt_usize_64 c); [exact Hw|apply N.ltb_lt, Hn]. }
  assert (HB : forall bs, buf_ok c bs = true -> lenN bs < 2 ^ 64) by (intros bs H; apply andb_prop in H as [_ H]; auto).
  assert (HS : forall bs, str_ok c bs = true -> lenN bs < 2 ^ 64) by (intros bs H; apply andb_prop in H as [_ H]; auto).
  assert (Hbig : forall bs, buf_ok c bs = true -> traced (ser (big_sval bs)) (text bs) WeOk).
  { intros bs H. destruct (big_ser bs) as [H1 H2]. rewrite enc_u64_spec in H2 by auto. split; assumption. }
  unfold body_ok in *.
  apply body_output_all_ind; intros; cbn [every node_ok body_sval forallb] in *; rewrite ?andb_true_r in *; try (split; reflexivity);
    try (apply (proj1 output_traced_all); [constructor|cbn [representable]; first
      [ apply N.ltb_lt; assumption
      | match goal with H : in_s ?w _ = true |- _ => apply in_s_range in H; exact H end | apply HS; assumption | apply HB; assumption ]]; fail).
  all: try (apply Hbig; assumption).
  - apply (traced_seq _ _ [1]); [apply traced_wr|auto].
  - apply andb_prop in H as [H _]. apply andb_prop in H as [H Hs]. destruct bs as [|x bs]; [congruence|].
    destruct (big_decimal_ser x bs s) as [H1 H2]. rewrite enc_u64_spec in H2 by auto. split; [|exact H1]. rewrite H2. unfold text.
    rewrite enc_zigzag_spec by (exact Hs || lia). rewrite (enc_u64_spec (zigzag s)) by (apply zigzag_bound; [lia|exact Hs]). reflexivity.
  - apply andb_prop in H0 as [H1 H2]. apply traced_seq; [apply (traced_len (Some _)); auto|auto].
  - auto.
  - apply andb_prop in H0 as [H0 H2]. apply andb_prop in H0 as [H0 H1]. apply andb_prop in H0 as [H0 _].
    apply traced_seq; [apply (traced_len (Some _)); auto|auto].
  - apply andb_prop in H0 as [H1 H2]. apply traced_seq; [apply traced_u32, N.ltb_lt; assumption|auto].
  - apply andb_prop in H as [H1 H2]. apply N.ltb_lt in H2. unfold date_sval.
    cbn [ser map wconcat fold_right]. apply traced_seq; [apply traced_year; assumption|]. rewrite <- (app_nil_r w).
    destruct (wend_dec r) as [->|Hr]; [apply traced_seq; [apply traced_day; assumption|split; reflexivity]|].
    rewrite app_nil_r. apply traced_stop; [apply traced_day; assumption|assumption].
  - apply andb_prop in H as [H1 H2]. cbn [date_sval ser map wconcat fold_right]. apply traced_stop; [apply traced_year; assumption|assumption].
  - apply andb_prop in H as [H1 H2]. apply in_s_range in H1. cbn [date_time_sval ser map wconcat fold_right snd].
    apply traced_seq; [apply traced_i64; assumption|]. rewrite <- (app_nil_r (varint_bytes 4 n)).
    apply traced_seq; [apply traced_u32, N.ltb_lt; assumption|split; reflexivity].
  - apply andb_prop in H1 as [H1 H2]. cbn [map]. apply traced_seq; auto.
  - apply andb_prop in H0 as [H0 H1]. cbn [map]. apply traced_stop; auto.
  - apply andb_prop in H1 as [H1 H3]. apply andb_prop in H2 as [H2 H4]. cbn [map fst snd] in *. rewrite app_assoc.
    apply traced_seq; [|auto]. apply traced_seq; [apply traced_text, HS, H1|auto].
  - apply andb_prop in H0 as [H0 H3]. apply andb_prop in H1 as [H1 H4]. cbn [map fst snd] in *.
    apply traced_stop; [|assumption]. apply traced_seq; [apply traced_text, HS, H0|auto].
Qed.

Lemma year_total c y : exists u r, year_output c y u r.
Proof.
  destruct (Z.le_gt_cases (- 2 ^ 31) (y - 2000)); [do 2 eexists; constructor; assumption|].
  destruct (overflow_checks c) eqn:E; do 2 eexists; [apply yo_panics|apply yo_wraps]; assumption.
Qed.
Lemma day_total c o : exists u r, day_output c o u r.
Proof.
  destruct (N.eq_dec o 0) as [->|Ho]; [|exists (varint_bytes 2 (o - 1)), WeOk; replace o with (o - 1 + 1) at 1 by lia; constructor].
  destruct (overflow_checks c) eqn:E; do 2 eexists; [apply do_panics|apply do_wraps]; assumption.
Qed.
Lemma body_outputs_total c l : Forall (fun b => exists u r, body_output c b u r) l -> exists u r, body_outputs c l u r.
Proof.
  induction 1 as [|v l (u & r & Hv) _ (w & r' & Hl)]; [do 2 eexists; constructor|].
  destruct (wend_dec r) as [->|Hr]; do 2 eexists; [eapply bos_cons; eassumption|eapply bos_stop; eassumption].
Qed.
Lemma body_entries_total c m : Forall (fun kv => exists u r, body_output c (snd kv) u r) m -> exists u r, body_entries_output c m u r.
Proof.
  induction 1 as [|[k b] m (u & r & Hv) _ (w & r' & Hl)]; [do 2 eexists; constructor|].
  destruct (wend_dec r) as [->|Hr]; do 2 eexists; [eapply beo_cons; eassumption|eapply beo_stop; eassumption].
Qed.
Lemma body_output_total c b : exists u r, body_output c b u r.
Proof.
  revert b; apply body_ind2.
  - intros b; destruct b as [|[ob|]|b|n|n|n|n|z|z|z|z|n|n|bs|bs|bs s|bs|bs|l|l|m|i b|y o|t n]; try exact I; try (do 2 eexists; constructor; fail).
    + destruct bs; [do 2 eexists; constructor|do 2 eexists; constructor; discriminate].
    + destruct (year_total c y) as (u & r & Hy). destruct (day_total c o) as (w & r' & Ho).
      destruct (wend_dec r) as [->|Hr]; do 2 eexists; [eapply bo_date; eassumption|eapply bo_date_year; eassumption].
  - intros b (u & r & H). do 2 eexists; constructor; exact H.
  - intros l H. apply body_outputs_total in H as (u & r & H). do 2 eexists; constructor; exact H.
  - intros l H. apply body_outputs_total in H as (u & r & H). do 2 eexists; constructor; exact H.
  - intros m H. apply body_entries_total in H as (u & r & H). do 2 eexists; constructor; exact H.
  - intros i b (u & r & H). do 2 eexists; constructor; exact H.
Qed.
Lemma body_output_iff c b u r : wf_cfg c -> body_ok c b = true -> (body_output c b u r <-> wbytes (bser c b) = u /\ wresult (bser c b) = r).
Proof.
  intros Hw Hb. pose proof (proj1 (body_output_traced_all c Hw)) as HT.
  split; [intros H; exact (HT b u r H Hb)|]. intros [<- <-].
  destruct (body_output_total c b) as (u & r & H). unfold bser. destruct (HT b u r H Hb) as [-> ->]. exact H.
Qed.

(** ** Values of supported types are representable *)
Lemma typed_representable c d v : wf_cfg c -> wf_dty d = true -> has_ty c d v = true -> representable v.
Proof.
  intros Hw. assert (HL : forall n, usize_ok c n = true -> n < 2 ^ 64).
  { intros n Hn. apply (lt_usize_64 c); [exact Hw|apply N.ltb_lt, Hn]. }
  assert (HB : forall bs, buf_ok c bs = true -> lenN bs < 2 ^ 64) by (intros bs H; apply andb_prop in H as [_ H]; auto).
  assert (HS : forall bs, str_ok c bs = true -> lenN bs < 2 ^ 64) by (intros bs H; apply andb_prop in H as [_ H]; auto).
  assert (HV : forall bs, bytes_ok bs -> lenN bs < 2 ^ usize_bits c -> representable (vec_u8 bs)).
  { intros bs Hb Hl. cbn [vec_u8 representable]. split; [apply (lt_usize_64 c); assumption|]. rewrite rep_list. apply Forall_map. exact Hb. }
  revert v. induction d using dty_ind2; intros v Hd Hv; cbn [has_ty wf_dty] in *; try discriminate.
  all: try (destruct v; try discriminate Hv; cbn [representable]; first
     [ exact I | apply N.ltb_lt; assumption
     | match type of Hv with in_s (usize_bits _) _ = _ => fail 1 | in_s _ _ = true => apply in_s_range in Hv; exact Hv end | apply HS; assumption | apply HB; assumption | apply HL; assumption ]; fail).
  - destruct v; try discriminate. apply in_s_range in Hv. cbn [representable]. destruct Hw as [[E|E] _]; rewrite E in Hv; change (2 ^ 63)%Z with 9223372036854775808%Z; [|exact Hv].
    change (2 ^ (Z.of_N 32 - 1))%Z with 2147483648%Z in Hv. lia.
  - destruct v; try discriminate. apply is_scalar_iff, Hv.
  - destruct v; try discriminate; [exact I|]. exact (IHd _ Hd Hv).
  - destruct v; try discriminate. exact (IHd _ Hd Hv).
  - destruct v as [ | | | | | | | | | | | | | | | | | | | | | | |[n|] l| | | | | | | | ]; try discriminate. apply andb_prop in Hv as [Hn Hv].
    apply andb_prop in Hn as [_ Hn]. cbn [representable]. rewrite rep_list. split; [auto|]. rewrite forallb_forall in Hv. apply Forall_forall. auto.
  - destruct v; try discriminate. apply (forall2b_Forall2 (has_ty c)) in Hv. cbn [representable]. rewrite rep_list.
    induction Hv as [|d v ds l H1 Hv IH]; [constructor|]. inversion H; subst. cbn [forallb] in Hd. apply andb_prop in Hd as [Hd1 Hd2].
    constructor; [exact (H3 v Hd1 H1)|auto].
  - destruct v; try discriminate. apply (forall2b_Forall2 (has_ty c)) in Hv. cbn [representable]. rewrite rep_list.
    induction Hv as [|d v ds l H1 Hv IH]; [constructor|]. inversion H; subst. cbn [forallb] in Hd. apply andb_prop in Hd as [Hd1 Hd2].
    constructor; [exact (H3 v Hd1 H1)|auto].
  - destruct v as [ | | | | | | | | | | | | | | | | | | | | | | | | | | |[n|] l| | | | ]; try discriminate.
    destruct (strkeys l) as [m|] eqn:E; [|discriminate]. apply andb_prop in Hv as [Hn Hv]. apply andb_prop in Hn as [Hn _]. apply andb_prop in Hn as [_ Hn].
    apply strkeys_spec in E. subst l. cbn [representable]. rewrite rep_entries. split; [auto|].
    rewrite forallb_forall in Hv. apply Forall_map, Forall_forall. intros [k x] Hin. specialize (Hv _ Hin). cbn [fst snd representable] in *.
    apply andb_prop in Hv as [H1 H2]. split; [auto|exact (IHd x Hd H2)].
  - destruct v; try discriminate. apply andb_prop in Hd as [_ Hd].
    apply (forall2b_Forall2 (fun nf kv => String.eqb (fst nf) (fst kv) && has_ty c (snd nf) (snd kv))) in Hv. cbn [representable]. rewrite rep_fields.
    induction Hv as [|d v ds l H1 Hv IH]; [constructor|]. inversion H; subst. cbn [forallb map] in *. apply andb_prop in H1 as [_ H1].
    apply andb_prop in Hd as [Hd1 Hd2]. constructor; [exact (H3 _ Hd1 H1)|auto].
  - apply andb_prop in Hd as [Hn Hd]. apply N.leb_le in Hn. rewrite forallb_forall in Hd. rewrite Forall_forall in H.
    destruct v; try discriminate; cbv zeta in Hv; rewrite pickN_map in Hv;
      match type of Hv with context [pickN vs ?i] => destruct (pickN vs i) as [[k dp]|] eqn:Hpick; [|discriminate] end;
      cbn [option_map fst snd] in Hv; destruct k; try discriminate; apply pickN_some in Hpick as [Hin Hi]; change (2 ^ 32) with 4294967296;
      pose proof (Hd _ Hin) as Hp; apply andb_prop in Hp as [_ Hp]; pose proof (H _ Hin _ Hp Hv) as HR; cbn [representable] in *;
      change (2 ^ 32) with 4294967296; try split; try assumption; lia.
  - destruct v as [ | | | | | | | | | | | | | | | | | | | | | | |[n|] [|v [|]]| | | | | | | | ]; try discriminate.
    apply (vec_u8_ok_spec c v Hw) in Hv as (bs & -> & Hb & Hl). split; [exact I|]. split; [apply HV; assumption|exact I].
  - destruct v as [ | | | | | | | | | | | | | | | | | | | | | | |[n|] [|v [|]]| | | | | | | | ]; try discriminate.
    apply (vec_u8_ok_spec c v Hw) in Hv as (bs & -> & Hb & Hl). split; [exact I|]. split; [apply HV; assumption|exact I].
  - destruct v as [ | | | | | | | | | | | | | | | | | | | | | | |[n|] [|v [|w [|]]]| | | | | | | | ]; try discriminate Hv.
    + destruct v as [ | | | | | |[|]| | | | | | | | | | | | | | | | | | | | | | | | | ]; try discriminate Hv. repeat split.
    + assert (Hw' : exists s, w = SI64 s /\ vec_u8_ok c v = true /\ in_s 64 s = true).
      { destruct v as [ | | | | | |[|]| | | | | | | | | | | | | | | | | | | | | | | | | ]; destruct w; try discriminate Hv;
          apply andb_prop in Hv as [Hv _]; apply andb_prop in Hv as [Hv Hs]; eexists; split; [reflexivity|split; [exact Hv|exact Hs]]. }
      destruct Hw' as (s & -> & Hv' & Hs). apply (vec_u8_ok_spec c v Hw) in Hv' as (bs & -> & Hb & Hl).
      apply in_s_range in Hs. split; [exact I|]. split; [apply HV; assumption|]. split; [exact Hs|exact I].
    + exfalso. destruct v as [ | | | | | |[|]| | | | | | | | | | | | | | | | | | | | | | | | | ]; destruct w; discriminate Hv.
  - destruct v as [ | | | | | | | | | | | | | | | | | | | | | | | |[|[] [|[] [|]]]| | | | | | | ]; try discriminate.
    apply andb_prop in Hv as [Hv _]. apply andb_prop in Hv as [H1 H2]. apply in_s_range in H1. apply N.ltb_lt in H2.
    split; [exact H1|]. split; [exact H2|exact I].
  - destruct v as [ | | | | | | | | | | | | | | | | | | | | | | | | | | | |[|[a []] [|[b []] [|]]]| | | ]; try discriminate.
    apply andb_prop in Hv as [Hv H2]. apply andb_prop in Hv as [_ H1]. apply in_s_range in H1. apply N.ltb_lt in H2.
    split; [exact H1|]. split; [exact H2|exact I].
Qed.

Lemma wf_shaped d : wf_dty d = true -> shaped d = true.
Proof.
  induction d using dty_ind2; cbn [wf_dty shaped]; auto.
  - rewrite !forallb_forall, Forall_forall in *. auto.
  - rewrite !forallb_forall, Forall_forall in *. auto.
  - intros Hd. apply andb_prop in Hd as [Hd1 Hd2]. apply andb_prop in Hd1 as [_ ->]. cbn [andb].
    rewrite forallb_forall, Forall_forall in *. auto.
  - intros Hd. apply andb_prop in Hd as [_ Hd]. rewrite forallb_forall, Forall_forall in *. intros kd Hin.
    specialize (Hd kd Hin). apply andb_prop in Hd as [-> Hd]. exact (H kd Hin Hd).
Qed.
Lemma typed_bytes c d v : wf_cfg c -> has_ty c d v = true -> bytes_ok (wbytes (ser v)).
Proof. intros Hw Hv. apply ser_bytes_ok, (typed_raw c d v Hw Hv). Qed.
