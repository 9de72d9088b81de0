(** * Proofs about the memory of headers. *)
From Coq Require Import String.
From Verif Require Import HeaderFacts.
From Verif Require Import Base BaseFacts Varint SpecVarint VarintFacts Header SpecHeader Serde SerdeFacts SerdeMore SerdeSafe SerdeSize SpecRequest SpecHeap HeapFacts Consume Grow SpecGrow GrowFacts HeldFacts PeakFacts Body SpecBody BodyFacts GrowHeader SpecGrowHeader.
Local Open Scope list_scope.
Local Open Scope N_scope.

Definition gh_members (c : cfg) (d : nat) (mk : list header -> header) : prog header :=
  size <- dec_u16 EIo ;; Alloc (size * size_of_header c) (pmap mk (repeatN size (ghde c d))).
Definition gh_kind (c : cfg) (d : nat) (o : option hkind) : prog header :=
  match o with
  | Some (Leaf h) => Ret h
  | Some (Box f) => hboxed c f (ghde c d)
  | Some (Members f) => gh_members c d f
  | None => Fail EInvalid
  end.
Lemma ghde_S c d : exists k, ghde c (S d) = ReadExact 1 EIo k /\ forall b, k [b] = gh_kind c d (lookup_code code_table b).
Proof.
  cbn [ghde]. eexists; split; [reflexivity|]. intros b. cbv beta zeta.
  change (at_ [b] 0) with b. unfold code_table; cbn [lookup_code].
  unfold UNIT_CODE, OPTIONAL_CODE, BOOLEAN_CODE, UINT8_CODE, UINT16_CODE, UINT32_CODE, UINT64_CODE, INT8_CODE, INT16_CODE,
    INT32_CODE, INT64_CODE, FLOAT32_CODE, FLOAT64_CODE, BIG_UINT_CODE, BIG_INT_CODE, BIG_DECIMAL_CODE, STRING_CODE, BINARY_CODE,
    ARRAY_CODE, TUPLE_CODE, MAP_CODE, ENUM_CODE, DATE_CODE, DATETIME_CODE.
  repeat match goal with |- context [?x =? ?n] => destruct (x =? n); [reflexivity|] end. reflexivity.
Qed.
Lemma run_ghde_S c d b s : run c (ghde c (S d)) (b :: s) = run c (gh_kind c d (lookup_code code_table b)) s.
Proof.
  destruct (ghde_S c d) as (k & -> & Hk). cbn [run]. rewrite lenN_cons. destruct (N.ltb_spec (lenN s + 1) 1); [lia|].
  change (b :: s) with ([b] ++ s). rewrite takeN_app_n, dropN_app_n, Hk by reflexivity. reflexivity.
Qed.
Lemma allocs_ghde_S c d b s : allocs c (ghde c (S d)) (b :: s) = allocs c (gh_kind c d (lookup_code code_table b)) s.
Proof.
  destruct (ghde_S c d) as (k & -> & Hk). cbn [allocs]. rewrite lenN_cons. destruct (N.ltb_spec (lenN s + 1) 1); [lia|].
  change (b :: s) with ([b] ++ s). rewrite takeN_app_n, dropN_app_n, Hk by reflexivity. reflexivity.
Qed.
Lemma adds_hboxed c f p q : adds eq p q -> adds eq (hboxed c f p) (pmap f q).
Proof. intros H. eapply adds_bind; [exact H|]. intros a b ->. apply ad_more, ad_ret. reflexivity. Qed.
Lemma adds_repeatN {A} n (p q : prog A) : adds eq p q -> adds eq (repeatN n p) (repeatN n q).
Proof.
  intros H. unfold repeatN. eapply adds_bind with (R := eq); [|intros a b ->; apply ad_ret; reflexivity].
  apply adds_fold; [|reflexivity]. intros ? acc ->. eapply adds_bind; [exact H|]. intros x y ->. apply ad_ret; reflexivity.
Qed.
Transparent hde.
Lemma ghde_adds c : forall d, adds eq (ghde c d) (hde c d).
Proof.
  induction d as [|d IH]; cbn [ghde hde]; [apply ad_crash|].
  assert (M : forall mk, adds eq (gh_members c d mk) (hde_members c d mk)).
  { intros mk. unfold gh_members, hde_members. apply adds_then; [apply adds_same|]. intros n. apply ad_alloc, adds_pmap, adds_repeatN, IH. }
  unfold gh_members, hde_members in M. apply ad_exact. intros bs. cbv zeta.
  repeat match goal with |- context [?x =? ?n] => destruct (x =? n); [first [apply ad_ret; reflexivity|apply adds_hboxed, IH|apply M]|] end.
  apply ad_fail.
Qed.
Global Opaque hde.

(** ** What a header read holds was asked for, exactly *)
Lemma asked_eq_repeatN {A} c n (p : prog A) (f : A -> N) : asked c p (fun a k => k = f a) ->
  asked c (repeatN n p) (fun l k => lenN l = n /\ k = total (map f l)).
Proof.
  intros Hp. unfold repeatN. eapply asked_bind with (R := fun acc k => lenN acc = n /\ k = total (map f acc)).
  - eapply asked_weaken; [apply (asked_foldN c n _ [] (fun i acc k => length acc = i /\ k = total (map f acc)))|].
    + split; reflexivity.
    + intros i acc k [Hl ->]. eapply asked_bind; [exact Hp|]. cbv beta. intros a t ->. apply asked_ret. cbn [length map total]. lia.
    + cbv beta. intros acc k [Hl ->]. unfold lenN. lia.
  - cbv beta. intros acc k [Hl ->]. apply asked_ret. unfold lenN in *. rewrite rev_length. split; [exact Hl|].
    clear. induction acc as [|a acc IH]; cbn [rev map total]; [reflexivity|]. rewrite map_app, total_app. cbn [map total]. lia.
Qed.
Lemma hsize_pos h : (1 <= hsize h)%nat.
Proof. destruct h; cbn [hsize]; lia. Qed.
Lemma members_size (k : N) hs : total (map (fun h => k * (N.of_nat (hsize h) - 1)) hs) + lenN hs * k = k * N.of_nat (list_sum (map hsize hs)).
Proof.
  induction hs as [|h hs IH]; cbn [map total list_sum fold_right]; [unfold lenN; cbn; lia|]. unfold list_sum in IH. rewrite lenN_cons.
  assert (H := hsize_pos h). rewrite N.mul_sub_distr_l. assert (k * 1 <= k * N.of_nat (hsize h)) by (apply N.mul_le_mono_l; lia). lia.
Qed.
Lemma asked_u16 c e : asked c (dec_u16 e) (fun _ k => k = 0).
Proof. intros s a r _. rewrite allocs_dec_u16. reflexivity. Qed.
Lemma ghde_exact c d : asked c (ghde c d) (fun h k => k = size_of_header c * (N.of_nat (hsize h) - 1)).
Proof.
  induction d as [|d IH]; [apply asked_crash|].
  destruct (ghde_S c d) as (k & -> & Hk). apply asked_exact. intros b Hb.
  destruct b as [|b [|b' bs]]; [cbn in Hb; lia| |rewrite !lenN_cons in Hb; lia]. rewrite Hk. clear Hk Hb k.
  destruct (lookup_code code_table b) as [[h|f|f]|] eqn:E; cbn [gh_kind]; [| | |apply asked_fail]; apply code_in in E.
  - apply asked_ret. destruct (kind_leaf b h E) as (-> & _). cbn. lia.
  - apply kind_box in E. eapply asked_bind; [exact IH|]. cbv beta. intros h t ->. apply asked_alloc, asked_ret.
    assert (H := hsize_pos h). replace (hsize (f h)) with (S (hsize h)) by (destruct E as [->|[->| ->]]; reflexivity).
    rewrite N.mul_sub_distr_l. assert (size_of_header c * 1 <= size_of_header c * N.of_nat (hsize h)) by (apply N.mul_le_mono_l; lia). lia.
  - apply kind_members in E. eapply asked_bind; [apply asked_u16|]. cbv beta. intros n t ->. apply asked_alloc, asked_pmap.
    eapply asked_weaken; [apply asked_eq_repeatN, IH|]. cbv beta. intros hs t [<- ->].
    replace (hsize (f hs)) with (S (list_sum (map hsize hs))) by (destruct E as [->| ->]; reflexivity).
    assert (H := members_size (size_of_header c) hs). lia.
Qed.

(** ** What is asked for in any case *)
Lemma enc_u16_long v : v < 2 ^ 16 -> 2 ^ 14 <= v -> lenN (enc_u16 v) = 3.
Proof.
  intros Hv H. rewrite enc_u16_spec by exact Hv. unfold varint_bytes. change (7 * N.of_nat 2) with 14.
  destruct (N.ltb_spec v (2 ^ 14)); [lia|]. reflexivity.
Qed.
Lemma ghde_total c : forall d s, bytes_ok s ->
  4 * total (allocs c (ghde c d) s) + 65535 * size_of_header c * match run c (ghde c d) s with OOk _ r => lenN r | _ => 0 end
  <= 65535 * size_of_header c * lenN s.
Proof.
  set (K := 65535 * size_of_header c).
  induction d as [|d IH]; intros s Hs; [cbn [ghde allocs run total]; lia|].
  assert (Hrep : forall n s, bytes_ok s ->
    4 * total (allocs c (rep n (ghde c d)) s) + K * match run c (rep n (ghde c d)) s with OOk _ r => lenN r | _ => 0 end <= K * lenN s).
  { clear s Hs. induction n as [|n IHn]; intros s Hs; cbn [rep]; [cbn [allocs run total]; lia|].
    rewrite allocs_bind, run_bind, total_app. specialize (IH s Hs).
    destruct (run c (ghde c d) s) as [h r|e|q] eqn:E; cbn [obind total]; [|lia..].
    pose proof (run_rest _ _ _ _ _ Hs E) as Hr. specialize (IHn r Hr).
    rewrite allocs_bind, run_bind, total_app. destruct (run c (rep n (ghde c d)) r) as [l r2|e|q]; cbn [obind run allocs total]; lia. }
  destruct s as [|b s]; [destruct (ghde_S c d) as (k & -> & _); cbn; lia|].
  rewrite allocs_ghde_S, run_ghde_S, lenN_cons. inversion Hs as [|? ? Hb Hs']; subst.
  destruct (lookup_code code_table b) as [[h'|f|f]|]; cbn [gh_kind].
  - cbn [allocs run total]. lia.
  - unfold hboxed. rewrite allocs_bind, run_bind, total_app. specialize (IH s Hs').
    destruct (run c (ghde c d) s); cbn [obind allocs run total]; [|lia..].
    destruct (alloc_result c (size_of_header c)); cbn [total]; lia.
  - unfold gh_members. rewrite allocs_bind, run_bind, allocs_dec_u16. cbn [app].
    destruct (run c (dec_u16 EIo) s) as [n r|e|q] eqn:E; cbn [obind]; [|cbn [total]; lia..].
    pose proof (consumes_u16 c EIo s n r Hs' E) as (k & Ek & Hk1 & Hk & Hn).
    pose proof (run_rest _ _ _ _ _ Hs' E) as Hr. cbn [allocs run total].
    assert (HK : 4 * (n * size_of_header c) <= K * (k + 1)).
    { destruct (N.leb_spec (2 ^ 14) n) as [L|L].
      - rewrite (enc_u16_long n Hn L) in Hk1. change (2 ^ 16) with 65536 in Hn.
        assert (n * size_of_header c <= K) by (unfold K; apply N.mul_le_mono_r; lia).
        assert (K * 4 <= K * (k + 1)) by (apply N.mul_le_mono_l; lia). lia.
      - change (2 ^ 14) with 16384 in L. assert (n * size_of_header c <= 16384 * size_of_header c) by (apply N.mul_le_mono_r; lia).
        assert (K * 2 <= K * (k + 1)) by (apply N.mul_le_mono_l; lia). unfold K in *. lia. }
    rewrite Ek. destruct (alloc_result c _); cbn [total]; [lia|].
    rewrite allocs_pmap, run_pmap, allocs_repeatN, run_repeatN. specialize (Hrep (N.to_nat n) r Hr).
    destruct (run c (rep (N.to_nat n) (ghde c d)) r); cbn [obind]; lia.
  - cbn [allocs run total]. lia.
Qed.
Lemma ghde_enough c d s : bytes_ok s -> 65535 * size_of_header c * lenN s <= 4 * heap_limit c -> heap_limit c <= isize_max c ->
  run c (ghde c d) s = run c (hde c d) s.
Proof.
  intros Hs H1 H2. eapply (fits_enough c _ _ s (heap_limit c)); [apply ghde_adds| |apply N.le_refl|exact H2].
  assert (H := ghde_total c d s Hs). lia.
Qed.
(** ** The bound is reached *)
Lemma ghde_reached c : room c -> forall k, total (allocs c (ghde c (S k)) (concat (repeat [21; 255; 255; 255] k))) = 65535 * size_of_header c * N.of_nat k
  /\ run c (ghde c (S k)) (concat (repeat [21; 255; 255; 255] k)) = OErr EIo.
Proof.
  intros Hroom. induction k as [|k [IHt IHr]]; [cbn [repeat concat]; destruct (ghde_S c 0) as (f & -> & _); cbn; split; [lia|reflexivity]|].
  set (s := concat (repeat [21; 255; 255; 255] k)) in *.
  change (concat (repeat [21; 255; 255; 255] (S k))) with (21 :: 255 :: 255 :: 255 :: s).
  rewrite allocs_ghde_S, run_ghde_S. change (lookup_code code_table 21) with (Some (Members HTuple)). cbn [gh_kind]. unfold gh_members.
  assert (E : run c (dec_u16 EIo) ([255; 255; 255] ++ s) = OOk 65535 s).
  { destruct (parses_u16_any c EIo 255 [255; 255] 65535) as [H _]; [lia|repeat constructor|reflexivity|reflexivity|apply H]. }
  cbn [app] in E. rewrite allocs_bind, run_bind, allocs_dec_u16, E. cbn [app obind allocs run]. rewrite room_alloc by (exact Hroom || reflexivity).
  cbn [total]. rewrite allocs_pmap, allocs_repeatN, run_pmap, run_repeatN.
  assert (P : exists m, N.to_nat 65535 = S m) by (exists (N.to_nat 65534); lia). destruct P as [m ->]. cbn [rep].
  rewrite allocs_bind, run_bind, IHr. cbn [obind]. rewrite app_nil_r, IHt. split; [lia|reflexivity].
Qed.

(** ** Header, then body *)
Lemma granted_all {A} c (p : prog A) : forall s a r, run c p s = OOk a r -> granted c p s = allocs c p s.
Proof.
  unfold granted. induction p as [a|e|q|n e k IH|n e k IH|n k IH]; intros s a' r E; cbn [run allocs] in *; try reflexivity.
  - destruct (lenN s <? n); [discriminate|]. eapply IH, E.
  - eapply IH, E.
  - unfold alloc_result in *. destruct (N.ltb_spec (isize_max c) n) as [|L1]; [discriminate|]. destruct (N.ltb_spec (heap_limit c) n) as [|L2]; [discriminate|].
    cbn [filter]. apply N.leb_le in L1, L2. rewrite L1, L2. cbn [andb]. f_equal. eapply IH, E.
Qed.
Lemma sum_le_max {A} (f : A -> N) x l : fold_right (fun h n => N.max (f h) n) x l <= total (map f l) + x.
Proof. induction l as [|a l IH]; cbn [fold_right map total]; lia. Qed.
Lemma sum_fold {A} (f : A -> N) l : fold_right (fun h n => f h + n) 0 l = total (map f l).
Proof. induction l as [|a l IH]; cbn [fold_right map total]; lia. Qed.
Lemma members_pair c e hs :
  Forall (fun h => fixed_part c h + grow_byte_body c e h + size_of_body c <= per_pair c e * N.of_nat (hsize h)) hs ->
  total (map (fixed_part c) hs) + total (map (grow_byte_body c e) hs) + lenN hs * size_of_body c <= per_pair c e * N.of_nat (list_sum (map hsize hs)).
Proof.
  induction 1 as [|h hs H _ IH]; [cbn; lia|]. cbn [map total list_sum fold_right]. unfold list_sum in IH. rewrite lenN_cons. lia.
Qed.
Lemma pair_bound c e h : fixed_part c h + grow_byte_body c e h + size_of_body c <= per_pair c e * N.of_nat (hsize h).
Proof.
  apply (header_ind2 (fun h => fixed_part c h + grow_byte_body c e h + size_of_body c <= per_pair c e * N.of_nat (hsize h))); clear h.
  - intros h. destruct h; try exact I; cbn [fixed_part grow_byte_body hsize]; unfold per_pair; lia.
  - intros h IH. cbn [fixed_part grow_byte_body hsize]. unfold per_pair in *. lia.
  - intros h IH. cbn [fixed_part grow_byte_body hsize]. unfold per_pair in *. lia.
  - intros h IH. cbn [fixed_part grow_byte_body hsize]. unfold per_pair in *. lia.
  - intros hs H. cbn [fixed_part grow_byte_body hsize]. rewrite sum_fold. assert (M := members_pair c e hs H). assert (L := sum_le_max (grow_byte_body c e) 0 hs).
    unfold per_pair in *. lia.
  - intros hs H. cbn [fixed_part grow_byte_body hsize]. assert (M := members_pair c e hs H).
    assert (L := sum_le_max (grow_byte_body c e) (size_of_body c) hs). assert (L' := sum_le_max (fixed_part c) 0 hs).
    assert (0 <= lenN hs * size_of_body c) by lia. unfold per_pair in *. lia.
Qed.
Lemma message_asked c m e depth s h r b r' : wf_cfg c -> 4096 <= heap_limit c -> sound_mem m e -> hoccurs is_free_array h = false -> bytes_ok s ->
  run c (ghde c depth) s = OOk h r -> run c (gbde c m h) r = OOk b r' ->
  lenN r' <= lenN r /\ lenN r < lenN s /\
  total (allocs c (ghde c depth) s) <= size_of_header c * (lenN s - lenN r) /\
  total (allocs c (gbde c m h) r) <= per_pair c e * (lenN s - lenN r) * (1 + (lenN r - lenN r')).
Proof.
  intros Hw Hh Hm Hf Hs Eh Eb.
  assert (Hr : bytes_ok r) by (eapply run_rest; eassumption).
  assert (Sz : (hsize h + length r <= length s)%nat).
  { destruct (adds_run c _ _ (ghde_adds c depth) s) as [E|(n & x & _ & _ & E)]; rewrite Eh in E; [|discriminate]. symmetry in E.
    apply hde_wire in E as (u & -> & W); [|exact Hs]. pose proof (proj1 (proj1 (wire_size false) u h W)). rewrite app_length. lia. }
  assert (X := ghde_exact c depth s h r Eh). cbv beta in X. assert (P := hsize_pos h).
  assert (B := body_granted c m e h r Hw Hh Hm Hf Hr). rewrite Eb in B. destruct B as [B1 B2]. rewrite (granted_all c _ _ _ _ Eb) in B2.
  split; [exact B1|]. split; [unfold lenN; lia|]. split.
  - rewrite X. apply N.mul_le_mono_l. unfold lenN; lia.
  - assert (Q := pair_bound c e h). set (n := lenN r - lenN r') in *.
    assert (per_pair c e * N.of_nat (hsize h) <= per_pair c e * (lenN s - lenN r)) by (apply N.mul_le_mono_l; unfold lenN; lia).
    assert (grow_byte_body c e h * n <= per_pair c e * (lenN s - lenN r) * n) by (apply N.mul_le_mono_r; lia). lia.
Qed.

(** ** A family of messages that asks for as much as the product *)
Lemma room_one c : room c -> alloc_result c (size_of_header c) = None.
Proof. intros H. rewrite <- (N.mul_1_l (size_of_header c)). apply room_alloc; [exact H|reflexivity]. Qed.
Lemma rows_read c : room c -> forall w rest, run c (ghde c (S w)) (concat (repeat [21; 2; 0] w) ++ 3 :: rest) = OOk (rows w) rest.
Proof.
  intros Hroom. induction w as [|w IH]; intros rest; [cbn [repeat concat app]; rewrite run_ghde_S; reflexivity|].
  change (concat (repeat [21; 2; 0] (S w)) ++ 3 :: rest) with (21 :: 2 :: 0 :: concat (repeat [21; 2; 0] w) ++ 3 :: rest).
  set (t := concat (repeat [21; 2; 0] w) ++ 3 :: rest) in *.
  rewrite run_ghde_S. change (lookup_code code_table 21) with (Some (Members HTuple)). cbn [gh_kind]. unfold gh_members.
  assert (E : run c (dec_u16 EIo) ([2] ++ 0 :: t) = OOk 2 (0 :: t)).
  { destruct (parses_u16_any c EIo 2 [] 2) as [H _]; [lia|constructor|reflexivity|reflexivity|apply H]. }
  cbn [app] in E. rewrite run_bind, E. cbn [obind run]. rewrite room_alloc by (exact Hroom || reflexivity).
  rewrite run_pmap, run_repeatN. change (N.to_nat 2) with 2%nat. cbn [rep]. rewrite run_bind, run_ghde_S.
  change (lookup_code code_table 0) with (Some (Leaf HUnit)). cbn [gh_kind run obind]. rewrite !run_bind. unfold t at 1. rewrite IH. cbn [obind run]. reflexivity.
Qed.
Lemma table_read c w rest : room c -> run c (ghde c (S (S w))) (20 :: concat (repeat [21; 2; 0] w) ++ 3 :: rest) = OOk (HArray (rows w)) rest.
Proof.
  intros Hroom. rewrite run_ghde_S. change (lookup_code code_table 20) with (Some (Box HArray)). cbn [gh_kind]. unfold hboxed.
  rewrite run_bind, rows_read by exact Hroom. cbn [obind run]. rewrite room_one by exact Hroom. reflexivity.
Qed.
Lemma row_read c m w x rest : x < 256 -> alloc_result c (2 * size_of_body c) = None ->
  run c (gbde c m (rows w)) (x :: rest) = OOk (row w x) rest /\ total (allocs c (gbde c m (rows w)) (x :: rest)) = N.of_nat w * (2 * size_of_body c).
Proof.
  intros Hx Ha. induction w as [|w [IH1 IH2]].
  - cbn [rows gbde bde row]. rewrite run_pmap, allocs_pmap. unfold de_u8, de_byte. cbn [run allocs]. rewrite lenN_cons.
    destruct (N.ltb_spec (lenN rest + 1) 1); [lia|]. change (x :: rest) with ([x] ++ rest). rewrite takeN_app_n, dropN_app_n by reflexivity.
    split; [reflexivity|cbn; lia].
  - cbn [rows gbde map]. change (lenN [HUnit; rows w]) with 2. cbn [run allocs]. rewrite Ha, run_pmap, allocs_pmap. cbn [sequence]. change (bde c HUnit) with (Ret BUnit). cbn [bind].
    rewrite !run_bind, !allocs_bind, IH1. cbn [obind run allocs total app row]. rewrite ?app_nil_r. split; [reflexivity|]. rewrite run_bind, IH1. cbn [obind run allocs]. rewrite !app_nil_r, IH2. lia.
Qed.
Lemma rows_pushed c m w cap : 0 < size_of_body c -> alloc_result c (2 * size_of_body c) = None -> forall k xs acc len rest, length xs = k -> bytes_ok xs -> len + N.of_nat k <= cap ->
  run c (iter k (push_step (size_of_body c) (gbde c m (rows w))) (acc, len, cap)) (xs ++ rest) = OOk (rev (map (row w) xs) ++ acc, len + N.of_nat k, cap) rest /\
  total (allocs c (iter k (push_step (size_of_body c) (gbde c m (rows w))) (acc, len, cap)) (xs ++ rest)) = N.of_nat k * (N.of_nat w * (2 * size_of_body c)).
Proof.
  intros Hz Ha. induction k as [|k IH]; intros xs acc len rest Hx Hb Hl.
  - destruct xs; [|discriminate]. cbn [iter run allocs total rev map app]. replace (len + N.of_nat 0) with len by lia. split; [reflexivity|lia].
  - destruct xs as [|x xs]; [discriminate|]. injection Hx as Hx. inversion Hb as [|? ? Hx1 Hb']; subst. cbn [iter app].
    destruct (row_read c m w x (xs ++ rest) Hx1 Ha) as [R1 R2].
    assert (E : run c (push_step (size_of_body c) (gbde c m (rows w)) (acc, len, cap)) (x :: xs ++ rest) = OOk (row w x :: acc, len + 1, cap) (xs ++ rest) /\
      total (allocs c (push_step (size_of_body c) (gbde c m (rows w)) (acc, len, cap)) (x :: xs ++ rest)) = N.of_nat w * (2 * size_of_body c)).
    { cbn [push_step]. rewrite run_bind, allocs_bind, R1, total_app, R2. cbn [obind]. unfold reserve.
      destruct (N.eqb_spec (size_of_body c) 0); [lia|]. destruct (N.ltb_spec cap (len + 1)); [lia|]. cbn [run allocs total]. split; [reflexivity|lia]. }
    destruct E as [E1 E2]. rewrite run_bind, allocs_bind, E1, total_app, E2. cbn [obind].
    destruct (IH xs (row w x :: acc) (len + 1) rest eq_refl Hb') as [I1 I2]; [lia|]. rewrite I1, I2. cbn [map rev]. rewrite <- app_assoc. cbn [app].
    replace (len + 1 + N.of_nat (length xs)) with (len + N.of_nat (S (length xs))) by lia. split; [reflexivity|lia].
Qed.
Lemma table_body c m w xs rest : wf_cfg c -> lenN xs < 2 ^ usize_bits c -> alloc_result c (2 * size_of_body c) = None ->
  alloc_result c (lenN xs * size_of_body c) = None -> bytes_ok xs ->
  run c (gbde c m (HArray (rows w))) (varint_bytes 8 (lenN xs) ++ xs ++ rest) = OOk (BArray (map (row w) xs)) rest /\
  total (allocs c (gbde c m (HArray (rows w))) (varint_bytes 8 (lenN xs) ++ xs ++ rest)) = lenN xs * (1 + 2 * N.of_nat w) * size_of_body c.
Proof.
  intros (Hu & Hz & _) Hn Ha Hx Hb.
  assert (H64 : lenN xs < 2 ^ 64) by (destruct Hu as [E|E]; rewrite E in Hn; [|exact Hn]; change (2 ^ 32) with 4294967296 in Hn; change (2 ^ 64) with 18446744073709551616; lia).
  assert (E : run c de_u64 (varint_bytes 8 (lenN xs) ++ xs ++ rest) = OOk (lenN xs) (xs ++ rest)).
  { destruct (parses_u64 c ERead (lenN xs) H64) as [P _]. rewrite enc_u64_spec in P by exact H64. apply P. }
  cbn [gbde]. rewrite run_bind, allocs_bind, E. cbn [obind]. rewrite total_app.
  assert (Q : allocs c de_u64 (varint_bytes 8 (lenN xs) ++ xs ++ rest) = []) by (apply quiet_allocs, quiet_u64). rewrite Q. cbn [total].
  assert (U : as_usize c (lenN xs) = lenN xs) by (apply N.mod_small, Hn). rewrite U. cbn [run allocs]. rewrite Hx, run_pmap, allocs_pmap.
  unfold g_push. rewrite run_bind, allocs_bind, run_foldN, allocs_foldN.
  destruct (rows_pushed c m w (lenN xs) ltac:(lia) Ha (N.to_nat (lenN xs)) xs [] 0 rest) as [I1 I2]; [unfold lenN; lia|exact Hb|lia|].
  rewrite I1. cbn [obind run allocs total app fst snd]. rewrite app_nil_r, rev_involutive. cbn [obind]. rewrite app_nil_r. split; [reflexivity|]. rewrite I2. lia.
Qed.
Lemma table_size w : lenN (20 :: concat (repeat [21; 2; 0] w) ++ [3]) = 3 * N.of_nat w + 2.
Proof.
  rewrite lenN_cons. unfold lenN. rewrite app_length. cbn [length].
  assert (E : length (concat (repeat [21; 2; 0] w)) = (3 * w)%nat) by (induction w as [|w IH]; [reflexivity|]; cbn [repeat concat]; rewrite app_length, IH; cbn [length]; lia). lia.
Qed.
Lemma table_free w : hoccurs is_free_array (HArray (rows w)) = false.
Proof.
  assert (E : hoccupies (rows w) = true) by (induction w as [|w IH]; [reflexivity|]; cbn [rows hoccupies existsb]; rewrite IH; reflexivity).
  cbn [hoccurs is_free_array]. rewrite E. cbn [negb orb].
  induction w as [|w IH]; [reflexivity|]. cbn [rows hoccurs is_free_array existsb orb]. rewrite IH; [reflexivity|].
  clear. induction w as [|w IH]; [reflexivity|]. cbn [rows hoccupies existsb]. rewrite IH. reflexivity.
Qed.
Lemma count_size c (xs : list N) : wf_cfg c -> lenN xs < 2 ^ usize_bits c -> lenN (varint_bytes 8 (lenN xs)) <= 9.
Proof.
  intros (Hu & _) Hn.
  assert (H64 : lenN xs < 2 ^ 64) by (destruct Hu as [E|E]; rewrite E in Hn; [|exact Hn]; change (2 ^ 32) with 4294967296 in Hn; change (2 ^ 64) with 18446744073709551616; lia).
  assert (H := varint_bytes_len 8 (lenN xs) ltac:(unfold varint_m; auto) H64). unfold lenN in *. lia.
Qed.
