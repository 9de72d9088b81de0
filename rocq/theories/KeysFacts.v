From Coq Require Import String Ascii.
From Verif Require Import Base BaseFacts Varint SpecVarint VarintFacts Serde Typing PrimFacts SerdeFacts SerdeProps MapFacts SpecMap Keys SpecKeys.
Local Open Scope list_scope.
Local Open Scope N_scope.

Definition ip4_ok (a : ip4) : Prop := bytes_ok (octets a).

Lemma digits_decimal n : n < 256 -> digits n = text_bytes (decimal n).
Proof.
  intros H.
  assert (E : forallb (fun k => let n := N.of_nat k in if list_eq_dec N.eq_dec (digits n) (text_bytes (decimal n)) then true else false) (seq 0 256) = true)
    by (vm_compute; reflexivity).
  rewrite forallb_forall in E. specialize (E (N.to_nat n)). cbv zeta in E. rewrite N2Nat.id in E.
  destruct (list_eq_dec N.eq_dec (digits n) (text_bytes (decimal n))) as [Hd|_]; [exact Hd|].
  assert (false = true); [|discriminate]. apply E. apply in_seq. lia.
Qed.
Lemma list_ascii_app s t : list_ascii_of_string (s ++ t) = list_ascii_of_string s ++ list_ascii_of_string t.
Proof. induction s as [|a s IH]; cbn; [reflexivity|]. f_equal. exact IH. Qed.
Lemma text_app s t : text_bytes (s ++ t) = text_bytes s ++ text_bytes t.
Proof. unfold text_bytes. rewrite list_ascii_app. apply map_app. Qed.
Lemma ip4_text_dotted a : ip4_ok a -> ip4_text a = dotted (octets a).
Proof.
  destruct a as [[[w x] y] z]. unfold ip4_ok, bytes_ok, octets, byte_ok. intros H.
  inversion H as [|? ? Hw H1]; subst. inversion H1 as [|? ? Hx H2]; subst. inversion H2 as [|? ? Hy H3]; subst. inversion H3 as [|? ? Hz _]; subst.
  unfold ip4_text, dotted. cbn [map String.concat]. rewrite !text_app, <- !digits_decimal by assumption. reflexivity.
Qed.
Lemma digits_length n : 1 <= lenN (digits n) <= 3.
Proof. unfold digits. destruct (n <? 10); [|destruct (n <? 100)]; cbn; lia. Qed.
Lemma ip4_text_length a : 7 <= lenN (ip4_text a) <= 15.
Proof.
  destruct a as [[[w x] y] z]. unfold ip4_text.
  pose proof (digits_length w). pose proof (digits_length x). pose proof (digits_length y). pose proof (digits_length z).
  repeat rewrite ?lenN_app, ?lenN_cons. lia.
Qed.

Lemma run_bytes4 c w x y z r : run c (ip4_de false) (w :: x :: y :: z :: r) = OOk (w, x, y, z) r.
Proof.
  assert (E : forall b t, run c de_u8 (b :: t) = OOk b t) by (intros b t; exact (proj1 (parses_byte c b) t)).
  unfold ip4_de. rewrite run_bind, E. cbn [obind]. rewrite run_bind, E. cbn [obind]. rewrite run_bind, E. cbn [obind]. rewrite run_bind, E. reflexivity.
Qed.
Lemma ip4_value c a r : wresult (ser (ip4_sval ser_human a)) = WeOk /\ wbytes (ser (ip4_sval ser_human a)) = octets a /\
  run c (ip4_de de_human) (octets a ++ r) = OOk a r.
Proof. destruct a as [[[w x] y] z]. split; [reflexivity|]. split; [reflexivity|]. apply run_bytes4. Qed.

Lemma ip4_key_map {V} (val : bool -> V -> sval) m : Forall (fun kv => ip4_ok (fst kv)) m ->
  key_map_sval ip4_sval val m = SMap (Some (lenN m)) (map (fun kv => (SStr (dotted (octets (fst kv))), val false (snd kv))) m).
Proof.
  intros H. unfold key_map_sval. f_equal. induction H as [|kv m Hk _ IH]; [reflexivity|]. cbn [map]. rewrite IH. f_equal.
  unfold ip4_sval, key_human, ser_human. rewrite ip4_text_dotted by exact Hk. reflexivity.
Qed.

(** Five bytes per entry, whatever they are. *)
Lemma run_entries5 c n : forall s, 5 * N.of_nat n <= lenN s ->
  exists es r, run c (rep n (k <- ip4_de de_human ;; v <- de_u8 ;; Ret (k, v))) s = OOk es r /\ length es = n /\ lenN r + 5 * N.of_nat n = lenN s.
Proof.
  induction n as [|n IH]; intros s Hl.
  - exists [], s. cbn. split; [reflexivity|]. split; [reflexivity|lia].
  - do 5 (destruct s as [|? s]; [cbn in Hl; lia|]).
    rewrite !lenN_cons in Hl. destruct (IH s ltac:(lia)) as (es & r & E & Hn & Hr).
    cbn [rep]. rewrite run_bind, run_bind. change de_human with false. rewrite run_bytes4. cbn [obind]. rewrite run_bind.
    match goal with |- context [run c de_u8 (?b :: s)] => rewrite (proj1 (parses_byte c b) s : run c de_u8 (b :: s) = OOk b s) end.
    cbn [obind run]. rewrite run_bind. change de_human with false in E. rewrite E. cbn [obind run].
    do 2 eexists. split; [reflexivity|]. rewrite !lenN_cons. cbn [length]. split; lia.
Qed.

Lemma key_map_bytes (m : list (ip4 * N)) :
  let w := ser (key_map_sval ip4_sval (fun _ n => SU8 n) m) in
  wresult w = WeOk /\ exists u, wbytes w = enc_u64 (lenN m) ++ u /\ 9 * lenN m <= lenN u.
Proof.
  unfold key_map_sval. cbn [ser ser_len]. rewrite map_map. cbn [fst snd].
  destruct (wconcat_ok (fun kv : ip4 * N => wseq (ser_key (ip4_sval key_human (fst kv))) (ser (SU8 (snd kv)))) m) as [H1 H2];
    [apply Forall_forall; intros; reflexivity|].
  split; [apply wresult_wseq_ok_iff; split; [reflexivity|exact H1]|].
  rewrite wbytes_wseq_done by reflexivity. eexists. split; [cbn [ser_u64 wr wbytes]; rewrite app_nil_r; reflexivity|].
  rewrite H2. clear. induction m as [|[a n] m IH]; [reflexivity|]. cbn [map concat]. rewrite lenN_app, lenN_cons.
  assert (9 <= lenN (wbytes (wseq (ser_key (ip4_sval key_human a)) (ser (SU8 n))))); [|cbn [fst snd]; lia].
  unfold ip4_sval, key_human, ser_key, ser_str. pose proof (ip4_text_length a) as Ht. rewrite !wbytes_wseq_done by reflexivity.
  cbn [ser_u64 ser wr wbytes]. rewrite !app_nil_r, !lenN_app. cbn.
  assert (1 <= lenN (enc_u64 (lenN (ip4_text a)))); [|lia].
  rewrite enc_u64_spec by lia. destruct (varint_bytes_shape 8 (lenN (ip4_text a)) (or_intror (or_intror eq_refl)) ltac:(lia)) as (p & t & -> & _).
  rewrite lenN_cons. lia.
Qed.
Lemma key_map_misread c m r : wf_cfg c -> lenN m < 2 ^ usize_bits c ->
  exists es r', run c (de_entries c (ip4_de de_human) de_u8) (wbytes (ser (key_map_sval ip4_sval (fun _ n => SU8 n) m)) ++ r) = OOk es r' /\
    lenN es = lenN m /\ lenN r + 4 * lenN m <= lenN r'.
Proof.
  intros Hw Hl. destruct (key_map_bytes m) as [_ (u & -> & Hu)].
  assert (H64 : lenN m < 2 ^ 64).
  { destruct (usize_bits_cases c Hw) as [E|E]; rewrite E in Hl; [|exact Hl]. eapply N.lt_trans; [exact Hl|reflexivity]. }
  rewrite <- app_assoc. unfold de_entries. rewrite run_bind, (proj1 (parses_u64 c ERead _ H64)). cbn [obind].
  rewrite as_usize_id, run_repeatN by exact Hl.
  destruct (run_entries5 c (N.to_nat (lenN m)) (u ++ r)) as (es & r' & E & Hn & Hr); [rewrite lenN_app; lia|].
  exists es, r'. split; [exact E|]. rewrite lenN_app in Hr. split; [unfold lenN in *; lia|lia].
Qed.
Lemma key_misread c a r : exists x y z, firstn 3 (ip4_text a) = [x; y; z] /\
  run c (ip4_de de_human) (wbytes (ser_key (ip4_sval key_human a)) ++ r) = OOk (lenN (ip4_text a), x, y, z) (skipn 3 (ip4_text a) ++ r).
Proof.
  unfold ip4_sval, key_human, ser_key, ser_str. rewrite wbytes_wseq_done by reflexivity. cbn [ser_u64 wr wbytes]. rewrite !app_nil_r.
  pose proof (ip4_text_length a) as Ht. destruct (ip4_text a) as [|x [|y [|z t]]]; try (cbn in Ht; lia).
  exists x, y, z. split; [reflexivity|].
  assert (E : enc_u64 (lenN (x :: y :: z :: t)) = [lenN (x :: y :: z :: t)]).
  { rewrite enc_u64_spec by lia. revert Ht. generalize (lenN (x :: y :: z :: t)). intros n Hn.
    assert (n = 7 \/ n = 8 \/ n = 9 \/ n = 10 \/ n = 11 \/ n = 12 \/ n = 13 \/ n = 14 \/ n = 15) by lia.
    repeat match goal with H : _ \/ _ |- _ => destruct H as [->|H] end; subst; vm_compute; reflexivity. }
  rewrite E. apply run_bytes4.
Qed.
Lemma entries_parse {K V} c (pk : prog K) (pv : prog V) us es : wf_cfg c -> lenN es < 2 ^ usize_bits c ->
  Forall2 (fun u kv => exists a b, u = a ++ b /\ parses c ERead pk a (fst kv) /\ parses c ERead pv b (snd kv)) us es ->
  parses c ERead (de_entries c pk pv) (enc_u64 (lenN es) ++ concat us) es.
Proof.
  intros Hw Hl H. apply (parses_vec c _ us es Hw); [|exact Hl].
  clear Hl. induction H as [|u [k v] us es (a & b & -> & Ha & Hb) _ IH]; constructor; [|exact IH]. cbn [fst snd] in *.
  eapply parses_bind; [exact Ha|]. eapply parses_bind_ret; [exact Hb|reflexivity].
Qed.
Lemma other_keys c dk dv es : wf_cfg c -> 4096 <= heap_limit c -> wf_dty dk = true -> wf_dty dv = true ->
  lenN es < 2 ^ usize_bits c -> Forall (fun kv => has_ty c dk (fst kv) = true /\ has_ty c dv (snd kv) = true) es ->
  parses c ERead (de_entries c (de c dk) (de c dv)) (varint_bytes 8 (lenN es) ++ concat (map (fun kv => wbytes (ser (fst kv)) ++ wbytes (ser (snd kv))) es)) es.
Proof.
  intros Hw Hh Hk Hv Hl H.
  assert (H64 : lenN es < 2 ^ 64).
  { destruct (usize_bits_cases c Hw) as [E|E]; rewrite E in Hl; [|exact Hl]. eapply N.lt_trans; [exact Hl|reflexivity]. }
  rewrite <- enc_u64_spec by exact H64. apply entries_parse; [exact Hw|exact Hl|].
  clear Hl H64. induction H as [|[k v] es [H1 H2] _ IH]; cbn [map]; constructor; [|exact IH]. cbn [fst snd] in *.
  do 2 eexists. split; [reflexivity|]. split; [apply (roundtrip c dk k)|apply (roundtrip c dv v)]; assumption.
Qed.

Lemma key_fixed c a r r' : run c (ip4_de de_human) (wbytes (ser_key (ip4_sval key_human a)) ++ r) = OOk a r' -> a = (11, 49, 49, 46).
Proof.
  intros H. destruct (key_misread c a r) as (x & y & z & E & H'). rewrite H' in H. injection H as Ha _. clear H'.
  pose proof (ip4_text_length a) as Hl. remember (lenN (ip4_text a)) as n eqn:En. subst a.
  assert (n = 7 \/ n = 8 \/ n = 9 \/ n = 10 \/ n = 11 \/ n = 12 \/ n = 13 \/ n = 14 \/ n = 15) as Hc by lia. clear Hl.
  cbn [ip4_text] in *.
  assert (Ex : nth 0 (firstn 3 (digits n ++ 46 :: digits x ++ 46 :: digits y ++ 46 :: digits z)) 0 = x) by (rewrite E; reflexivity).
  assert (Ey : nth 1 (firstn 3 (digits n ++ 46 :: digits x ++ 46 :: digits y ++ 46 :: digits z)) 0 = y) by (rewrite E; reflexivity).
  assert (Ez : nth 2 (firstn 3 (digits n ++ 46 :: digits x ++ 46 :: digits y ++ 46 :: digits z)) 0 = z) by (rewrite E; reflexivity).
  clear E.
  repeat match goal with H : _ \/ _ |- _ => destruct H as [->|H] end; [..|subst n].
  all: cbn in Ex; subst x; cbn in Ey; subst y; cbn in Ez; subst z; vm_compute in En; (discriminate || reflexivity).
Qed.
