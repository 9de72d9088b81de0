(** * Proofs about Serde.v: sizes, panics and memory requests on arbitrary input. *)
From Coq Require Import String.
From Verif Require Import Base BaseFacts Varint VarintFacts ZigZagFacts Utf8 Utf8Facts SpecUtf8 SpecVarint SpecRequest
  Serde Typing PrimFacts SerdeFacts SerdeMore Consume.
Local Open Scope list_scope.
Local Open Scope N_scope.

(** ** A struct decodes its fields in order *)
Lemma run_struct_loop {A} c (fs : list (string * prog A)) : NoDup (map fst fs) ->
  forall s, run c (struct_loop (map fst fs) fs (map (fun _ => None) fs)) s =
            obind (run c (sequence (map snd fs)) s) (fun l r => OOk (map Some l) r).
Proof.
  intros Hnd.
  assert (G : forall fs2 fs1 (l1 : list A) s, fs = fs1 ++ fs2 -> length fs1 = length l1 ->
     run c (struct_loop (map fst fs2) fs (map Some l1 ++ map (fun _ => None) fs2)) s =
     obind (run c (sequence (map snd fs2)) s) (fun l r => OOk (map Some (l1 ++ l)) r)).
  { induction fs2 as [|[k p] fs2 IH]; intros fs1 l1 s E El; cbn [map struct_loop sequence fst snd].
    - cbn [run obind]. rewrite !app_nil_r. reflexivity.
    - assert (Hk : ~ In k (map fst fs1)).
      { rewrite E, map_app in Hnd. cbn [map fst] in Hnd. apply NoDup_remove_2 in Hnd.
        intros Hin; apply Hnd, in_or_app; left; exact Hin. }
      assert (Ef : find_field k fs = Some (length fs1, p)) by (rewrite E; apply find_field_app, Hk).
      rewrite Ef.
      assert (El1 : length (map (@Some A) l1) = length fs1) by (rewrite map_length; congruence).
      assert (En : nth_error (map Some l1 ++ None :: map (fun _ => None) fs2) (length fs1) = Some None)
        by (rewrite <- El1; apply nth_error_mid).
      rewrite En, !run_bind, obind_obind. apply obind_ext. intros a r.
      rewrite run_bind, obind_obind. cbn [run obind].
      rewrite <- El1, set_slot_app.
      specialize (IH (fs1 ++ [(k, p)]) (l1 ++ [a]) r).
      rewrite map_app in IH. cbn [map] in IH. rewrite <- !app_assoc in IH. cbn [app] in IH.
      rewrite IH; [|exact E|rewrite !app_length; cbn [length]; lia].
      apply obind_ext. intros l r'. rewrite <- app_assoc. reflexivity. }
  intros s. exact (G fs [] [] s eq_refl eq_refl).
Qed.
Lemma run_sequence_length {A} c (ps : list (prog A)) s l r :
  run c (sequence ps) s = OOk l r -> length l = length ps.
Proof.
  revert s l r; induction ps as [|p ps IH]; intros s l r; cbn [sequence]; intros H.
  - injection H as <- _; reflexivity.
  - apply run_bind_ok in H as (a & r1 & _ & H). apply run_bind_ok in H as (l' & r2 & H & H').
    cbn [run] in H'. injection H' as <- _. cbn [length]. f_equal; eapply IH; exact H.
Qed.
Lemma run_struct {A} c (fs : list (string * prog A)) miss s :
  NoDup (map fst fs) -> length miss = length fs ->
  run c (de_struct (map fst fs) fs miss) s = run c (sequence (map snd fs)) s.
Proof.
  intros Hnd Hm; unfold de_struct. rewrite run_bind, run_struct_loop, obind_obind by exact Hnd.
  destruct (run c (sequence (map snd fs)) s) as [l r|e|q] eqn:E; cbn [obind]; try reflexivity.
  apply run_sequence_length in E. rewrite map_length in E.
  rewrite fill_missing_all by congruence. reflexivity.
Qed.
(** Same for the struct case of [de]. *)
Lemma run_de_struct c fs s : NoDup (map fst fs) ->
  run c (de c (DStruct (map fst fs) fs)) s =
  run c (pmap (fun l => SStruct (combine (map fst fs) l)) (sequence (map (fun nf => de c (snd nf)) fs))) s.
Proof.
  intros Hnd; cbn [de]. rewrite !run_pmap.
  pose proof (run_struct c (map (fun nf => (fst nf, de c (snd nf))) fs) (map (fun nf => missing (snd nf)) fs) s) as H.
  rewrite !map_map, !map_length in H. cbn [fst snd] in H.
  change (map (fun x : string * dty => fst x) fs) with (map fst fs) in H.
  rewrite H; [reflexivity|exact Hnd|reflexivity].
Qed.

(** ** Sizes *)
Definition wsize (w : wprog) : N := lenN (wbytes w).
Definition vsize (v : sval) : N := wsize (ser v).
Lemma wsize_wseq a b : wsize (wseq a b) <= wsize a + wsize b.
Proof.
  unfold wsize; induction a as [|e|p|bs k IH]; cbn [wseq wbytes]; rewrite ?lenN_nil, ?lenN_app; lia.
Qed.
Lemma wsize_wr bs : wsize (wr bs) = lenN bs.
Proof. unfold wsize, wr; cbn [wbytes]; rewrite app_nil_r; reflexivity. Qed.
Lemma wsize_wconcat l : wsize (wconcat l) <= sumN wsize l.
Proof.
  induction l as [|w l IH]; [cbn; lia|]. change (wconcat (w :: l)) with (wseq w (wconcat l)).
  cbn [sumN]. pose proof (wsize_wseq w (wconcat l)). lia.
Qed.
Lemma wsize_wconcat_map {A} (f : A -> wprog) l : wsize (wconcat (map f l)) <= sumN (fun a => wsize (f a)) l.
Proof. pose proof (wsize_wconcat (map f l)) as H. rewrite sumN_map in H; exact H. Qed.
Lemma wsize_str bs : wsize (ser_str bs) = lenN (enc_u64 (lenN bs)) + lenN bs.
Proof. unfold wsize, ser_str, ser_u64. cbn [wseq wr wbytes]. rewrite app_nil_r, lenN_app; reflexivity. Qed.
Lemma vsize_vec_u8 bs : vsize (vec_u8 bs) = lenN (enc_u64 (lenN bs)) + lenN bs.
Proof. unfold vsize, wsize. rewrite (proj2 (ser_vec_u8 bs)), lenN_app; reflexivity. Qed.

Lemma consumes_byte c : consumes c de_byte (fun b n => 1 <= n /\ b < 256).
Proof.
  apply consumes_ReadExact; intros bs Hl Hb; apply consumes_Ret. split; [lia|].
  explode bs Hl. inversion Hb; subst; assumption.
Qed.
Lemma consumes_bool c : consumes c de_bool (fun _ n => 1 <= n).
Proof.
  eapply consumes_bind; [apply consumes_byte|]. cbv beta. intros b n [Hn _].
  destruct (b =? 0); [apply consumes_Ret; lia|]. destruct (b =? 1); [apply consumes_Ret; lia|apply consumes_Fail].
Qed.
Lemma as_u_small_bound w z : as_u w z < 2 ^ w. Proof. apply as_u_bound. Qed.
Lemma enc_dec_zigzag w v : 1 <= w -> v < 2 ^ w -> enc_zigzag w (dec_zigzag w v) = v.
Proof.
  intros Hw Hv. rewrite dec_zigzag_spec, enc_zigzag_spec by (try apply unzigzag_in; assumption).
  apply zigzag_unzigzag.
Qed.
Lemma consumes_i16 c : consumes c de_i16 (fun z n => lenN (enc_u16 (enc_zigzag 16 z)) <= n /\ 1 <= n).
Proof.
  eapply consumes_pmap; [apply consumes_u16|]. cbv beta. intros v n (H1 & H2 & H3).
  rewrite enc_dec_zigzag by (first [lia | exact H3]). auto.
Qed.
Lemma consumes_i32 c : consumes c de_i32 (fun z n => lenN (enc_u32 (enc_zigzag 32 z)) <= n /\ 1 <= n).
Proof.
  eapply consumes_pmap; [apply consumes_u32|]. cbv beta. intros v n (H1 & H2 & H3).
  rewrite enc_dec_zigzag by (first [lia | exact H3]). auto.
Qed.
Lemma consumes_i64 c : consumes c de_i64 (fun z n => lenN (enc_u64 (enc_zigzag 64 z)) <= n /\ 1 <= n).
Proof.
  eapply consumes_pmap; [apply consumes_u64|]. cbv beta. intros v n (H1 & H2 & H3).
  rewrite enc_dec_zigzag by (first [lia | exact H3]). auto.
Qed.
Lemma consumes_float c n : consumes c (ReadExact n ERead (fun b => Ret (of_le b))) (fun _ m => m = n).
Proof. apply consumes_ReadExact; intros bs Hl _; apply consumes_Ret; lia. Qed.
Lemma lenN_le_bytes n v : lenN (le_bytes n v) = N.of_nat n.
Proof. rewrite le_bytes_digits; apply lenN_le_digits. Qed.

Lemma consumes_string c : consumes c (de_string c) (fun bs n => wsize (ser_str bs) <= n).
Proof.
  rewrite de_string_unfold. eapply consumes_bind; [apply consumes_u64|]. cbv beta.
  intros len n (H1 & H2 & H3) s bs r Hs H. unfold de_str_body in H.
  assert (E : exists k, k <= len /\ lenN bs = k /\ lenN s = k + lenN r).
  { destruct (len <? STR_MAX); cbn [run] in H.
    - destruct (N.ltb_spec (lenN s) len) as [|Hl]; [discriminate|]. destruct (utf8_valid (takeN len s)); [|discriminate].
      injection H as <- <-. exists len. rewrite lenN_takeN, lenN_dropN. lia.
    - destruct (utf8_valid (takeN len s)); [|discriminate]. destruct (_ =? _); [|discriminate].
      injection H as <- <-. exists (N.min len (lenN s)). rewrite lenN_takeN, lenN_dropN. lia. }
  destruct E as (k & Hk & El & Es). exists k. split; [lia|]. rewrite wsize_str, El. pose proof (enc_u64_mono k len Hk H3). lia.
Qed.
Lemma as_usize_le c n : as_usize c n <= n.
Proof. unfold as_usize. apply N.mod_le, N.pow_nonzero. discriminate. Qed.
Lemma buf_total_le c len : buf_total c len <= len.
Proof.
  unfold buf_total, buf_todo, BUF_MAX. destruct (N.ltb_spec 4096 len); [|lia]. destruct (_ <? _); lia.
Qed.
Lemma consumes_byte_buf c : wf_cfg c -> 4096 <= heap_limit c ->
  consumes c (de_byte_buf c) (fun bs n => wsize (ser_bytes bs) <= n).
Proof.
  intros Hw Hh. rewrite de_byte_buf_unfold. eapply consumes_bind; [apply consumes_u64|]. cbv beta.
  intros len n (H1 & H2 & H3) s bs r Hs H. rewrite buf_body_run in H by assumption.
  pose proof (buf_total_le c len) as Hk. revert Hk H. generalize (buf_total c len). intros k Hk H.
  destruct (N.ltb_spec (lenN s) k) as [|Hl]; [discriminate|]. injection H as <- <-.
  assert (El : lenN (takeN k s) = k) by (rewrite lenN_takeN; lia).
  exists k. split; [rewrite lenN_dropN; lia|]. change ser_bytes with ser_str. rewrite wsize_str, El. pose proof (enc_u64_mono k len Hk H3). lia.
Qed.
Lemma consumes_vec {A} c (p : prog A) (f : A -> N) :
  consumes c p (fun a n => f a <= n) ->
  consumes c (de_vec c p) (fun l n => lenN (enc_u64 (lenN l)) + sumN f l <= n).
Proof.
  intros Hp. eapply consumes_bind; [apply consumes_u64|]. cbv beta. intros v n (H1 & H2 & H3).
  eapply consumes_weaken; [apply consumes_repeatN, Hp|]. cbv beta. intros l m [-> Hs]. pose proof (enc_u64_mono _ v (as_usize_le c v) H3). lia.
Qed.
Lemma consumes_vec_u8 c : consumes c (de_vec c de_u8) (fun bs n => vsize (vec_u8 bs) <= n).
Proof.
  eapply consumes_weaken; [apply (consumes_vec c de_u8 (fun _ => 1))|].
  - eapply consumes_weaken; [apply consumes_byte|]. cbv beta; tauto.
  - cbv beta. intros bs n H. rewrite vsize_vec_u8.
    replace (sumN (fun _ => 1) bs) with (lenN bs) in H; [exact H|].
    clear. induction bs as [|b bs IH]; [reflexivity|]. rewrite lenN_cons; cbn [sumN]; lia.
Qed.
Lemma map_insert_sum {V} (f : list N * V -> N) k v m : sumN f (map_insert k v m) <= f (k, v) + sumN f m.
Proof.
  induction m as [|[k' v'] m IH]; cbn [map_insert sumN]; [lia|].
  destruct (bytes_cmp k k'); cbn [sumN]; lia.
Qed.
Lemma consumes_map_n {A} c v (p : prog A) (f : A -> N) :
  consumes c p (fun a n => f a <= n) ->
  consumes c (de_map_n c v p) (fun m n => lenN m <= v /\
    sumN (fun kv => wsize (ser_str (fst kv)) + f (snd kv)) m <= n).
Proof.
  intros Hp. unfold de_map_n.
  eapply consumes_weaken.
  - apply (consumes_foldN c v _ [] (fun i (m : list (list N * A)) k => (length m <= i)%nat /\
      sumN (fun kv => wsize (ser_str (fst kv)) + f (snd kv)) m <= k)).
    + split; [cbn; lia|cbn; lia].
    + intros i m k [Hl Hs]. eapply consumes_bind; [apply consumes_string|]. cbv beta. intros key nk Hk.
      eapply consumes_bind; [exact Hp|]. cbv beta. intros a na Ha. apply consumes_Ret. split.
      * pose proof (map_insert_length key a m); lia.
      * pose proof (map_insert_sum (fun kv => wsize (ser_str (fst kv)) + f (snd kv)) key a m). cbn [fst snd] in *. lia.
  - cbv beta. intros m k [Hl Hs]. split; [unfold lenN; lia|exact Hs].
Qed.
Lemma consumes_map {A} c (p : prog A) (f : A -> N) :
  consumes c p (fun a n => f a <= n) ->
  consumes c (de_map c p) (fun m n => lenN (enc_u64 (lenN m)) + sumN (fun kv => wsize (ser_str (fst kv)) + f (snd kv)) m <= n).
Proof.
  intros Hp. eapply consumes_bind; [apply consumes_u64|]. cbv beta. intros v n (H1 & H2 & H3).
  eapply consumes_weaken; [apply consumes_map_n, Hp|].
  cbv beta. intros m k [Hl Hs]. assert (lenN m <= v) by (pose proof (as_usize_le c v); lia).
  pose proof (enc_u64_mono (lenN m) v H H3). lia.
Qed.

Lemma sumN_combine {A B} (f : B -> N) (ks : list A) l : sumN (fun kv => f (snd kv)) (combine ks l) <= sumN f l.
Proof.
  revert l; induction ks as [|k ks IH]; intros [|x l]; cbn [combine sumN snd]; try lia. specialize (IH l); lia.
Qed.

(** What is decoded never needs more room when written again than it took. *)
Lemma reencode c d : wf_cfg c -> 4096 <= heap_limit c -> wf_dty d = true ->
  consumes c (de c d) (fun v n => vsize v <= n).
Proof.
  intros Hw Hh. induction d using dty_ind2; cbn [wf_dty]; intros Hwf; try discriminate.
  all: try (cbn [de]).
  - eapply consumes_pmap; [apply consumes_bool|]. cbv beta. intros b n Hn. unfold vsize; cbn [ser]. rewrite wsize_wr. exact Hn.
  - eapply consumes_pmap with (R := fun _ n => 1 <= n).
    + eapply consumes_pmap; [apply consumes_byte|]. cbv beta; tauto.
    + cbv beta. intros b n Hn. unfold vsize; cbn [ser]. rewrite wsize_wr. exact Hn.
  - eapply consumes_pmap; [apply consumes_i16|]. cbv beta. intros z n [Hn _]. unfold vsize; cbn [ser]. unfold ser_i16. rewrite wsize_wr. exact Hn.
  - eapply consumes_pmap; [apply consumes_i32|]. cbv beta. intros z n [Hn _]. unfold vsize; cbn [ser]. unfold ser_i32. rewrite wsize_wr. exact Hn.
  - eapply consumes_pmap; [apply consumes_i64|]. cbv beta. intros z n [Hn _]. unfold vsize; cbn [ser]. unfold ser_i64. rewrite wsize_wr. exact Hn.
  - eapply consumes_pmap; [apply consumes_byte|]. cbv beta. intros b n [Hn _]. unfold vsize; cbn [ser]. rewrite wsize_wr. exact Hn.
  - eapply consumes_pmap; [apply consumes_u16|]. cbv beta. intros z n [Hn _]. unfold vsize; cbn [ser]. unfold ser_u16. rewrite wsize_wr. exact Hn.
  - eapply consumes_pmap; [apply consumes_u32|]. cbv beta. intros z n [Hn _]. unfold vsize; cbn [ser]. unfold ser_u32. rewrite wsize_wr. exact Hn.
  - eapply consumes_pmap; [apply consumes_u64|]. cbv beta. intros z n [Hn _]. unfold vsize; cbn [ser]. unfold ser_u64. rewrite wsize_wr. exact Hn.
  - eapply consumes_pmap with (R := fun z n => lenN (enc_u64 (enc_zigzag 64 z)) <= n).
    + eapply consumes_bind; [apply consumes_i64|]. cbv beta. intros z n [Hn _].
      destruct (in_s (usize_bits c) z); [apply consumes_Ret; lia|apply consumes_Fail].
    + cbv beta. intros z n Hn. unfold vsize; cbn [ser]. unfold ser_i64. rewrite wsize_wr. exact Hn.
  - eapply consumes_pmap with (R := fun z n => lenN (enc_u64 z) <= n).
    + eapply consumes_bind; [apply consumes_u64|]. cbv beta. intros z n [Hn _].
      destruct (z <? 2 ^ usize_bits c); [apply consumes_Ret; lia|apply consumes_Fail].
    + cbv beta. intros z n Hn. unfold vsize; cbn [ser]. unfold ser_u64. rewrite wsize_wr. exact Hn.
  - eapply consumes_pmap; [apply consumes_float|]. cbv beta. intros z n ->. unfold vsize; cbn [ser]. rewrite wsize_wr, lenN_le_bytes. lia.
  - eapply consumes_pmap; [apply consumes_float|]. cbv beta. intros z n ->. unfold vsize; cbn [ser]. rewrite wsize_wr, lenN_le_bytes. lia.
  - (* char *)
    eapply consumes_pmap with (R := fun ch n => wsize (ser_str (char_utf8 ch)) <= n); [|auto].
    eapply consumes_bind; [apply consumes_yields; [apply consumes_string|apply yields_string, Hw]|]. cbv beta.
    intros s n [Hn [Hv Hl]]. destruct (next_char s) as [ch|] eqn:E; [apply consumes_Ret|apply consumes_Fail].
    destruct s as [|b s]; [discriminate|]. apply valid_inv in Hv as (c' & t & Hsc & Es & _).
    rewrite Es, next_char_utf8 in E by exact Hsc. injection E as <-.
    rewrite char_utf8_spec by (unfold scalar in Hsc; lia).
    rewrite Es, wsize_str, lenN_app in Hn. rewrite Es, lenN_app in Hl. rewrite wsize_str.
    assert (B : 2 ^ usize_bits c <= 2 ^ 64) by (destruct Hw as [[E|E] _]; rewrite E; discriminate).
    pose proof (enc_u64_mono (lenN (utf8 c')) (lenN (utf8 c') + lenN t)). lia.
  - eapply consumes_pmap; [apply consumes_string|]. auto.
  - eapply consumes_pmap; [apply consumes_byte_buf; assumption|]. auto.
  - (* option *)
    eapply consumes_pmap with (R := fun o n => match o with Some v => 1 + vsize v <= n | None => 1 <= n end).
    + eapply consumes_bind; [apply consumes_bool|]. cbv beta. intros [|] n Hn.
      * eapply consumes_pmap; [apply IHd, Hwf|]. cbv beta. intros v m Hv; lia.
      * apply consumes_Ret; lia.
    + intros [v|] n Hn; unfold vsize; cbn [ser]; rewrite ?wsize_wr; [|exact Hn].
      pose proof (wsize_wseq (wr [1]) (ser v)). rewrite wsize_wr in *. unfold vsize in Hn. change (lenN [1]) with 1 in *. lia.
  - apply consumes_Ret. cbn; lia.
  - apply consumes_Ret. cbn; lia.
  - eapply consumes_pmap; [apply IHd, Hwf|]. auto.
  - (* vec *)
    eapply consumes_pmap; [apply consumes_vec, IHd, Hwf|]. cbv beta. intros l n Hn.
    unfold vsize; cbn [ser ser_len]. pose proof (wsize_wseq (ser_u64 (lenN l)) (wconcat (map ser l))) as H1.
    pose proof (wsize_wconcat_map ser l) as H2. unfold ser_u64 in *. rewrite wsize_wr in H1. unfold vsize in Hn. lia.
  - (* tuple *)
    rewrite forallb_forall in Hwf. eapply consumes_pmap; [apply consumes_sequence|].
    + apply Forall_map, Forall_forall. intros d Hd. rewrite Forall_forall in H. apply (H d Hd), Hwf, Hd.
    + cbv beta. intros l n Hn. unfold vsize at 1; cbn [ser]. pose proof (wsize_wconcat_map ser l) as H2. unfold vsize in Hn. lia.
  - rewrite forallb_forall in Hwf. eapply consumes_pmap; [apply consumes_sequence|].
    + apply Forall_map, Forall_forall. intros d Hd. rewrite Forall_forall in H. apply (H d Hd), Hwf, Hd.
    + cbv beta. intros l n Hn. unfold vsize at 1; cbn [ser]. pose proof (wsize_wconcat_map ser l) as H2. unfold vsize in Hn. lia.
  - (* map *)
    eapply consumes_pmap; [apply consumes_map, IHd, Hwf|]. cbv beta. intros m n Hn.
    unfold vsize; cbn [ser ser_len]. rewrite map_map. cbn [fst snd ser_key].
    match goal with |- wsize (wseq ?a ?b) <= _ => pose proof (wsize_wseq a b) as H1 end.
    pose proof (wsize_wconcat_map (fun kv : list N * sval => wseq (ser_str (fst kv)) (ser (snd kv))) m) as H2.
    assert (H3 : sumN (fun kv : list N * sval => wsize (wseq (ser_str (fst kv)) (ser (snd kv)))) m <=
                 sumN (fun kv => wsize (ser_str (fst kv)) + vsize (snd kv)) m).
    { apply sumN_le. intros kv _. apply wsize_wseq. }
    unfold ser_u64 in *. rewrite wsize_wr in H1. lia.
  - (* struct *)
    apply andb_prop in Hwf as [Hwf Hfs]. apply andb_prop in Hwf as [Hk Hnd].
    destruct (list_eq_dec string_dec keys (map fst fs)) as [->|]; [|discriminate].
    apply nodupb_NoDup in Hnd. rewrite forallb_forall in Hfs.
    fold (de c (DStruct (map fst fs) fs)). eapply consumes_ext; [intros; apply run_de_struct, Hnd|].
    eapply consumes_pmap; [apply consumes_sequence|].
    + apply Forall_map, Forall_forall. intros d Hd. rewrite Forall_forall in H. apply (H d Hd), Hfs, Hd.
    + cbv beta. intros l n Hn. unfold vsize at 1; cbn [ser].
      pose proof (wsize_wconcat_map (fun kv : string * sval => ser (snd kv)) (combine (map fst fs) l)) as H2.
      pose proof (sumN_combine vsize (map fst fs) l) as H3. unfold vsize in *. lia.
  - (* enum *)
    apply andb_prop in Hwf as [Hn Hvs]. rewrite forallb_forall in Hvs. rewrite Forall_forall in H.
    eapply consumes_bind; [apply consumes_u16|]. cbv beta. intros i n (Hi1 & Hi2 & Hi3).
    rewrite pickN_map. destruct (pickN vs i) as [[k dp]|] eqn:E; [|apply consumes_Fail]. cbn [option_map fst snd].
    apply pickN_some in E as Hin. destruct Hin as [Hin Hlt].
    specialize (Hvs _ Hin). cbn [fst snd] in Hvs. apply andb_prop in Hvs as [Hv1 Hv2].
    rewrite <- idx_agree in Hi1 by lia.
    eapply consumes_pmap; [apply (H _ Hin), Hv2|]. cbv beta. cbn [snd]. intros v m Hv.
    assert (G : forall w, wsize (wseq (ser_u32 i) w) <= n + wsize w).
    { intros w. pose proof (wsize_wseq (ser_u32 i) w) as G. unfold ser_u32 in *. rewrite wsize_wr in G. lia. }
    assert (Gn : vsize (SNewtypeVariant i v) <= n + m).
    { unfold vsize in *; cbn [ser]. specialize (G (ser v)). lia. }
    destruct k; cbn [variant_sval].
    + unfold vsize; cbn [ser]. unfold ser_u32 in *. rewrite wsize_wr. lia.
    + destruct v; exact Gn.
    + destruct v; exact Gn.
    + destruct v; exact Gn.
  - eapply consumes_pmap; [apply consumes_vec_u8|]. cbv beta. intros bs n Hn. unfold vsize, big_sval.
    change (ser (SSeq None [vec_u8 bs])) with (wseq (ser (vec_u8 bs)) WDone).
    pose proof (wsize_wseq (ser (vec_u8 bs)) WDone). unfold vsize in Hn. change (wsize WDone) with 0 in *. lia.
  - eapply consumes_pmap; [apply consumes_vec_u8|]. cbv beta. intros bs n Hn. unfold vsize, big_sval.
    change (ser (SSeq None [vec_u8 bs])) with (wseq (ser (vec_u8 bs)) WDone).
    pose proof (wsize_wseq (ser (vec_u8 bs)) WDone). unfold vsize in Hn. change (wsize WDone) with 0 in *. lia.
  - eapply consumes_pmap with (R := fun p n => vsize (big_decimal_sval (fst p) (snd p)) <= n); [|auto].
    eapply consumes_bind; [apply consumes_vec_u8|]. cbv beta. intros [|b bs] n Hn.
    + apply consumes_Ret. cbn [fst snd big_decimal_sval]. cbn in Hn |- *. lia.
    + eapply consumes_bind; [apply consumes_i64|]. cbv beta. intros z m [Hz _]. apply consumes_Ret. cbn [fst snd big_decimal_sval].
      unfold vsize.
      change (ser (SSeq None [vec_u8 (b :: bs); SI64 z])) with (wseq (ser (vec_u8 (b :: bs))) (wseq (ser_i64 z) WDone)).
      pose proof (wsize_wseq (ser (vec_u8 (b :: bs))) (wseq (ser_i64 z) WDone)) as H1.
      pose proof (wsize_wseq (ser_i64 z) WDone) as H2. change (wsize WDone) with 0 in *. unfold ser_i64 in *. rewrite wsize_wr in *.
      unfold vsize in Hn. lia.
  - (* date *)
    eapply consumes_pmap with (R := fun p n => vsize (date_sval c (fst p) (snd p)) <= n); [|auto].
    eapply consumes_bind; [apply consumes_yields; [apply consumes_i32|apply yields_i32]|]. cbv beta. intros y0 n [[Hn _] Hy0].
    destruct (arith_s c 32 (y0 + YEAR_OFFSET)) as [y|] eqn:Ey; cbn [or_overflow bind]; [|apply consumes_Crash].
    eapply consumes_bind; [apply consumes_u16|]. cbv beta. intros o0 m (Hm & _ & Ho0).
    destruct (arith_u c 16 (Z.of_N o0 + Z.of_N ORDINAL_OFFSET)) as [o|] eqn:Eo; cbn [or_overflow bind]; [|apply consumes_Crash].
    apply consumes_Ret. cbn [fst snd]. unfold date_sval.
    rewrite (arith_s_inv _ _ _ Hy0 Ey), (arith_u_inv _ _ _ Ho0 Eo).
    unfold vsize, wsize. cbn [ser map wconcat fold_right ser_i32 ser_u16 wseq wr wbytes]. rewrite app_nil_r, lenN_app. lia.
  - eapply consumes_pmap with (R := fun p n => lenN (enc_u64 (enc_zigzag 64 (fst p))) + lenN (enc_u32 (snd p)) <= n).
    + eapply consumes_bind; [apply consumes_i64|]. cbv beta. intros t n [Ht _]. eapply consumes_bind; [apply consumes_u32|].
      cbv beta. intros m k [Hm _]. apply consumes_Ret. cbn [fst snd]. lia.
    + cbv beta. intros [t n] k Hk. unfold vsize, wsize, date_time_sval.
      cbn [ser map wconcat fold_right snd fst ser_i64 ser_u32 wseq wr wbytes] in *. rewrite app_nil_r, lenN_app. lia.
Qed.
