(** * Memory asked for per byte, however deep values nest: proofs. *)
From Coq Require Import String.
From Verif Require Import Base BaseFacts SpecVarint Varint VarintFacts Utf8 Serde SerdeFacts SerdeMore SerdeSafe SerdeSize SerdeProps Typing Consume PrimFacts SpecDty SpecRequest
  ArchFacts SpecHeap HeapFacts Rec RecFacts Grow SpecGrow GrowFacts GrowRec SpecPeak ExPeak.
Local Open Scope list_scope.
Local Open Scope N_scope.

Lemma largest_in {A} (f : A -> N) l x : In x l -> f x <= largest f l.
Proof. unfold largest. induction l as [|y l IH]; cbn [fold_right]; intros []; [subst; lia|specialize (IH H); lia]. Qed.

Section Rich.
Variables (c : cfg) (flt : N -> bool) (G : N).
(** What is left when at least one byte was read and not spent. *)
Definition spare (b : bool) : N := if b then G else 0.

Lemma pays_fail {A} e pre (post : A -> N) be pe : pays c flt (Fail e) pre post be pe.
Proof. intros s Hs. cbn [run]. unfold cost. cbn [allocs filter total]. lia. Qed.
Lemma pays_crash {A} q pre (post : A -> N) be pe : pays c flt (Crash q) pre post be pe.
Proof. intros s Hs. cbn [run]. unfold cost. cbn [allocs filter total]. lia. Qed.
Lemma rich_quiet {A} (p : prog A) pe : quiet p -> consumes c p (fun _ n => 1 <= n) -> pays c flt p 0 (fun _ => G) G pe.
Proof.
  intros Hq Hc. apply (pays_weaken c flt p 0 (fun _ => 0 + G) (0 + G) pe); [|lia|intros; cbv beta; lia|lia|lia].
  apply pays_bank; [apply pays_quiet; [exact Hq|intros; apply N.le_refl]|]. eapply consumes_weaken; [exact Hc|]. cbv beta. intros _ n Hn. nia.
Qed.
Lemma rich_u64 pe : pays c flt (dec_u64 ERead) 0 (fun _ => G) G pe.
Proof. apply rich_quiet; [apply quiet_u64|]. eapply consumes_weaken; [apply consumes_u64|]. cbv beta. tauto. Qed.
Lemma rich_u16 pe : pays c flt de_u16 0 (fun _ => G) G pe.
Proof. apply rich_quiet; [apply quiet_u16|]. eapply consumes_weaken; [apply consumes_u16|]. cbv beta. tauto. Qed.
Lemma rich_bool pe : pays c flt de_bool 0 (fun _ => G) G pe.
Proof. apply rich_quiet; [apply quiet_bool|]. apply consumes_bool. Qed.
(** More to begin with, more to end with. *)
Lemma pays_with {A} (p : prog A) pre post pe x : pays c flt p pre (fun _ => post) G pe -> pays c flt p (x + pre) (fun _ => x + post) G pe.
Proof.
  intros H. apply (pays_shift _ _ _ _ _ _ _ x) in H. eapply pays_weaken; [exact H|lia|intros; cbv beta; lia|lia|lia].
Qed.
Lemma pays_less {A} (p : prog A) pre post pe pre' post' : pays c flt p pre (fun _ => post) G pe -> pre <= pre' -> post' <= post ->
  pays c flt p pre' (fun _ => post') G pe.
Proof. intros H H1 H2. eapply pays_weaken; [exact H|exact H1|intros; exact H2|apply N.le_refl|apply N.le_refl]. Qed.

(** ** Vectors *)
Lemma rich_push {A} size n (p : prog A) al pe : pays c flt p al (fun _ => G) G pe -> 12 * size + al <= G ->
  pays c flt (g_push size n 0 p) G (fun _ => G) G pe.
Proof.
  intros Hp Hg. unfold g_push. set (phi := fun st : list A * N * N => G + credit (snd (fst st)) (snd st) * size).
  eapply pays_bind with (mid := phi); [|intros st; apply pays_ret; unfold phi; lia].
  eapply pays_weaken with (pre := phi ([], 0, 0)); [|unfold phi, credit; cbn [fst snd]; lia|intros; apply N.le_refl|apply N.le_refl|apply N.le_refl].
  apply (pays_fold c flt n (push_step size p) ([], 0, 0) (fun _ => True) phi); [|intros; repeat intro; exact I|exact I].
  intros [[acc len] k] _. unfold phi at 1. cbn [push_step fst snd].
  eapply pays_bind with (mid := fun _ => G + (12 * 1 + credit len k) * size).
  - apply (pays_with p al G pe (G - al + credit len k * size)) in Hp. eapply pays_less; [exact Hp|lia|lia].
  - intros a. apply pays_reserve; [lia|]. intros k'. apply pays_ret. unfold phi. cbn [fst snd]. lia.
Qed.
Lemma flat_push {A} n (p : prog A) pe : pays c flt p 0 (fun _ => 0) G pe -> pays c flt (g_push 0 n 0 p) G (fun _ => G) G pe.
Proof.
  intros Hp. unfold g_push. eapply pays_bind with (mid := fun _ => G); [|intros st; apply pays_ret, N.le_refl].
  apply (pays_fold c flt n (push_step 0 p) ([], 0, 0) (fun _ => True) (fun _ => G)); [|intros; repeat intro; exact I|exact I].
  intros [[acc len] k] _. cbn [push_step]. eapply pays_bind; [apply (pays_with p 0 0 pe G) in Hp; eapply pays_less with (post' := G); [exact Hp|lia|lia]|].
  intros a. apply pays_ret, N.le_refl.
Qed.
Lemma rich_vec {A} size (p : prog A) al pe : pays c flt p al (fun _ => G) G pe -> 12 * size + al <= G -> pays c flt (g_vec c size p) 0 (fun _ => G) G pe.
Proof. intros Hp Hg. eapply pays_bind; [apply rich_u64|]. intros n. cbv beta. eapply rich_push; eassumption. Qed.
Lemma flat_vec {A} (p : prog A) pe : pays c flt p 0 (fun _ => 0) G pe -> pays c flt (g_vec c 0 p) 0 (fun _ => G) G pe.
Proof. intros Hp. eapply pays_bind; [apply rich_u64|]. intros n. cbv beta. apply flat_push, Hp. Qed.

(** ** Texts *)
Variable (Hw : wf_cfg c).
Lemma rich_string m : (forall n, total (m_text m n) <= 4 * n + 64) -> 16 <= G -> pays c flt (g_string c m) 0 (fun _ => G) G 64.
Proof.
  intros Ht Hg. eapply pays_bind with (mid := fun len => G + (if 2 ^ 32 <=? len then 64 else 0)).
  - apply (pays_weaken c flt _ 0 (fun len => 0 + (G + (if 2 ^ 32 <=? len then 64 else 0))) (0 + G) 64); [|lia|intros; cbv beta; lia|lia|lia].
    apply pays_bank; [apply pays_quiet; [apply quiet_u64|intros; lia]|].
    eapply consumes_weaken; [apply consumes_u64|]. cbv beta. intros len n (H1 & H2 & H3).
    destruct (N.leb_spec (2 ^ 32) len) as [L|L]; [|nia].
    assert (M := enc_u64_mono (2 ^ 32) len L H3). change (lenN (enc_u64 (2 ^ 32))) with 5 in M. nia.
  - intros len. destruct (N.ltb_spec len STR_MAX) as [L|L].
    + apply pays_exact. intros b Hb. eapply pays_weaken; [apply pays_alloc with (pre := G)| |intros; apply N.le_refl|apply N.le_refl|apply N.le_refl].
      * destruct (utf8_valid b); [apply pays_ret, N.le_refl|apply pays_fail].
      * nia.
    + apply pays_limit. intros b. specialize (Ht (lenN b)).
      assert (Hb : 4 * lenN b <= G * lenN b) by (apply N.mul_le_mono_r; lia).
      destruct (utf8_valid b); [|apply pays_asks_fail; lia].
      destruct (N.eqb_spec (lenN b) (as_usize c len)) as [E|E]; [|apply pays_asks_fail; lia].
      eapply pays_weaken; [apply pays_asks with (pre := G)| |intros; apply N.le_refl|apply N.le_refl|apply N.le_refl].
      * apply pays_ret. apply N.le_refl.
      * destruct (N.leb_spec (2 ^ 32) len) as [M|M]; [lia|]. rewrite as_usize_small in E by assumption. unfold STR_MAX in L.
        assert (Hb' : 5 * lenN b <= G * lenN b) by (apply N.mul_le_mono_r; lia). lia.
Qed.
Lemma rich_char m : (forall n, total (m_text m n) <= 4 * n + 64) -> 16 <= G -> pays c flt (g_char c m) 0 (fun _ => G) G 64.
Proof.
  intros Ht Hg. eapply pays_bind; [apply rich_string; assumption|]. intros s. cbv beta. destruct (next_char s); [apply pays_ret, N.le_refl|apply pays_fail].
Qed.
Lemma rich_buffer : 4096 <= heap_limit c -> per_buffer_byte c + 12 <= G -> pays c flt (g_byte_buf c) 0 (fun _ => G) G 4096.
Proof.
  intros Hh Hg s Hs. assert (A := adds_run c _ _ (adds_buf c) s). revert A. rewrite g_byte_buf_unfold, cost_bind.
  rewrite de_byte_buf_unfold. rewrite !run_bind.
  assert (E0 : cost c flt (dec_u64 ERead) s = 0) by (unfold cost; rewrite quiet_allocs by apply quiet_u64; reflexivity). rewrite E0.
  destruct (run c (dec_u64 ERead) s) as [len r|e|q] eqn:E; cbn [obind]; [|intros; apply N.le_0_l..].
  destruct (consumes_u64 c ERead s len r Hs E) as (n & En & He & H1 & Hlen).
  assert (H := pays_buf_body c flt Hw len r (run_rest c _ s len r Hs E)).
  rewrite buf_body_run by assumption. intros A.
  destruct (run c (gbuf_body c len) r) as [x r'|e|q]; [|rewrite En; nia..].
  destruct H as [H2 H3]. split; [lia|]. destruct A as [A|(? & ? & _ & _ & A)]; [|discriminate A].
  destruct (N.ltb_spec (lenN r) (buf_total c len)) as [Hl|Hl]; [discriminate|]. injection A as _ ->.
  rewrite lenN_dropN in *. replace (lenN s - (lenN r - buf_total c len)) with (n + buf_total c len) by lia.
  replace (lenN r - (lenN r - buf_total c len)) with (buf_total c len) in H3 by lia.
  unfold per_buffer_byte in Hg. destruct (N.eqb_spec (usize_bits c) 64) as [E64|E64].
  - rewrite buf_total_exact in * by (apply as_usize_id; rewrite E64; exact Hlen).
    assert (13 * len <= G * len) by (apply N.mul_le_mono_r; lia). assert (G * 1 <= G * n) by (apply N.mul_le_mono_l; lia). rewrite N.mul_add_distr_l. lia.
  - assert (Ht : 12 * buf_total c len <= G * buf_total c len) by (apply N.mul_le_mono_r; lia).
    rewrite N.mul_add_distr_l. destruct (N.le_gt_cases 128 len) as [L|L].
    + assert (M := enc_u64_mono 128 len L Hlen). change (lenN (enc_u64 128)) with 2 in M.
      assert (G * 2 <= G * n) by (apply N.mul_le_mono_l; lia). lia.
    + rewrite buf_total_exact in * by (apply as_usize_small; [exact Hw|eapply N.lt_trans; [exact L|reflexivity]]).
      assert (13 * len <= G * len) by (apply N.mul_le_mono_r; lia). assert (G * 1 <= G * n) by (apply N.mul_le_mono_l; lia). lia.
Qed.

(** ** Maps *)
Lemma rich_map_n {A} m (e : N -> N) size n (p : prog A) al po pe :
  (forall k, total (m_text m k) <= 4 * k + 64) -> (forall size n, map_total m size n <= N.of_nat n * e size) -> 16 <= G -> e size + al <= G ->
  pays c flt p al (fun _ => po) G pe -> pays c flt (g_map_n c m size n p) 0 (fun _ => 0) G (N.max 64 pe).
Proof.
  intros Ht Hm H16 Hg Hp. set (phi := fun l : list (list N * A) => N.of_nat (length l) * e size - map_total m size (length l)).
  unfold g_map_n. eapply pays_weaken with (pre := phi []) (post := phi); [|unfold phi; cbn [length map_total]; change (N.of_nat 0) with 0; lia|intros; apply N.le_0_l|apply N.le_refl|apply N.le_refl].
  apply pays_fold with (Inv := fun _ => True); [|intros; repeat intro; exact I|exact I].
  intros l _. eapply pays_bind with (mid := fun _ => e size + al + phi l).
  - assert (B := rich_string m Ht H16). apply (pays_with _ _ _ _ (phi l)) in B. eapply pays_weaken; [exact B|lia|intros; cbv beta; lia|lia|lia].
  - intros k. eapply pays_bind with (mid := fun _ => e size + phi l).
    + apply (pays_with _ _ _ _ (e size + phi l)) in Hp. eapply pays_weaken; [exact Hp|lia|intros; cbv beta; lia|lia|lia].
    + intros v. destruct (has_key k l) eqn:E; cbn [asks].
      * apply pays_ret. unfold phi. assert (M0 := Hm size (length l)). destruct (insert_old k v l) as [->| ->]; [lia|]. cbn [map_total]. rewrite Nat2N.inj_succ, N.mul_succ_l. lia.
      * eapply pays_weaken; [apply pays_asks with (pre := phi (map_insert k v l)), pays_ret, N.le_refl| |intros; apply N.le_refl|apply N.le_refl|apply N.le_refl].
        unfold phi. rewrite insert_new by exact E. assert (M0 := Hm size (length l)). assert (M1 := Hm size (S (length l))). cbn [map_total] in M1 |- *.
        unfold lenN. rewrite Nat2N.inj_succ, N.mul_succ_l in *. lia.
Qed.
Lemma rich_map {A} m (e : N -> N) size (p : prog A) al po pe :
  (forall k, total (m_text m k) <= 4 * k + 64) -> (forall size n, map_total m size n <= N.of_nat n * e size) -> 16 <= G -> e size + al <= G ->
  pays c flt p al (fun _ => po) G pe -> pays c flt (g_map c m size p) 0 (fun _ => G) G (N.max 64 pe).
Proof.
  intros Ht Hm H16 Hg Hp. eapply pays_bind; [apply rich_u64|]. intros n. cbv beta.
  assert (B := rich_map_n m e size (as_usize c n) p al po pe Ht Hm H16 Hg Hp). apply (pays_with _ _ _ _ G) in B. eapply pays_less; [exact B|lia|lia].
Qed.

(** ** Members one after the other *)
Lemma added_spare {X} (o : X -> bool) l : spare (existsb o l) <= added (fun x => spare (o x)) l.
Proof.
  unfold added. induction l as [|x l IH]; cbn [existsb fold_right]; [apply N.le_refl|]. unfold spare in *. destruct (o x), (existsb o l); cbn [orb]; lia.
Qed.
Lemma rich_sequence {A X} (g : X -> prog A) (al : X -> N) (o : X -> bool) pe l : Forall (fun x => pays c flt (g x) (al x) (fun _ => spare (o x)) G pe) l ->
  pays c flt (sequence (map g l)) (added al l) (fun _ => spare (existsb o l)) G pe.
Proof.
  intros H. eapply pays_less; [|apply N.le_refl|apply added_spare]. unfold added.
  induction H as [|x l H _ IH]; cbn [map sequence fold_right]; [apply pays_ret, N.le_refl|].
  eapply pays_bind.
  { apply (pays_with _ _ _ _ (fold_right (fun x n => al x + n) 0 l)) in H. eapply pays_less; [exact H|lia|apply N.le_refl]. }
  intros a. cbv beta. eapply pays_bind.
  { apply (pays_with _ _ _ _ (spare (o x))) in IH. eapply pays_less; [exact IH|lia|apply N.le_refl]. }
  intros t. apply pays_ret, N.le_refl.
Qed.
Lemma find_own {A} (fs : list (string * A)) f : NoDup (map fst fs) -> In f fs -> exists i, find_field (fst f) fs = Some (i, snd f).
Proof.
  intros Hn Hin. apply in_split in Hin as (l1 & l2 & ->). destruct f as [n a]. cbn [fst snd] in *. exists (length l1). apply find_field_app.
  rewrite map_app in Hn. cbn [map fst] in Hn. apply NoDup_remove_2 in Hn. intros H. apply Hn, in_or_app. auto.
Qed.
Lemma rich_struct {A X} (g : X -> prog A) (al : X -> N) (o : X -> bool) pe (fs : list (string * X)) miss : NoDup (map fst fs) ->
  Forall (fun x => pays c flt (g (snd x)) (al (snd x)) (fun _ => spare (o (snd x))) G pe) fs ->
  pays c flt (de_struct (map fst fs) (map (fun x => (fst x, g (snd x))) fs) miss) (added (fun x => al (snd x)) fs) (fun _ => spare (existsb (fun x => o (snd x)) fs)) G pe.
Proof.
  intros Hn Hf. set (gs := map (fun x => (fst x, g (snd x))) fs).
  assert (L : forall l slots, incl l fs -> pays c flt (struct_loop (map fst l) gs slots) (added (fun x => al (snd x)) l) (fun _ => added (fun x => spare (o (snd x))) l) G pe).
  { unfold added. induction l as [|x l IH]; intros slots Hl; cbn [map struct_loop fold_right]; [apply pays_ret, N.le_refl|].
    assert (Hx : In x fs) by apply Hl, in_eq.
    destruct (find_own gs (fst x, g (snd x))) as [i E].
    { unfold gs. rewrite map_map. exact Hn. }
    { unfold gs. apply in_map_iff. exists x. auto. }
    cbn [fst snd] in E. rewrite E. destruct (nth_error slots i) as [[a|]|]; [apply pays_fail| |apply pays_fail].
    rewrite Forall_forall in Hf. specialize (Hf x Hx).
    eapply pays_bind.
    { apply (pays_with _ _ _ _ (fold_right (fun x n => al (snd x) + n) 0 l)) in Hf. eapply pays_less; [exact Hf|lia|apply N.le_refl]. }
    intros a. cbv beta. specialize (IH (set_slot i a slots) (fun y Hy => Hl y (in_cons _ _ _ Hy))).
    apply (pays_with _ _ _ _ (spare (o (snd x)))) in IH. eapply pays_less; [exact IH|lia|apply N.le_refl]. }
  eapply pays_less; [|apply N.le_refl|apply added_spare]. unfold de_struct. eapply pays_bind; [apply L, incl_refl|]. intros slots. cbv beta.
  apply pays_quiet; [apply quiet_fill_missing|intros; apply N.le_refl].
Qed.
Lemma rich_enum {X} (g : X -> N -> prog sval) (al : X -> N) (o : X -> bool) pe vs :
  Forall (fun x => al x <= G /\ (o x = false -> al x = 0) /\ forall i, pays c flt (g x i) (al x) (fun _ => spare (o x)) G pe) vs ->
  pays c flt (de_enum (map g vs)) 0 (fun _ => G) G pe.
Proof.
  intros H. eapply pays_bind; [apply rich_u16|]. intros i. cbv beta. rewrite pickN_map. destruct (pickN vs i) as [x|] eqn:E; cbn [option_map]; [|apply pays_fail].
  apply pickN_some in E as [Hin _]. rewrite Forall_forall in H. destruct (H x Hin) as (H1 & H2 & H3). specialize (H3 i).
  apply (pays_with _ _ _ _ (G - al x)) in H3. eapply pays_less; [exact H3|lia|]. unfold spare. destruct (o x); [lia|]. rewrite H2 by reflexivity. lia.
Qed.
Lemma rich_option {A} (p : prog A) al o pe : al <= G -> (o = false -> al = 0) -> pays c flt p al (fun _ => spare o) G pe ->
  pays c flt (de_option p) 0 (fun _ => G) G pe.
Proof.
  intros H1 H2 H3. eapply pays_bind; [apply rich_bool|]. intros [|]; cbv beta; [|apply pays_ret, N.le_refl]. apply pays_pmap.
  apply (pays_with _ _ _ _ (G - al)) in H3. eapply pays_less; [exact H3|lia|]. unfold spare. destruct o; [lia|]. rewrite H2 by reflexivity. lia.
Qed.
Lemma added_zero {X} (l : list X) : added (fun _ => 0) l = 0.
Proof. unfold added. induction l; cbn [fold_right]; [reflexivity|]. lia. Qed.

(** ** Typed values *)
Lemma peak_pays m e d : 4096 <= heap_limit c -> sound_mem m e -> wf_dty d = true -> peak c m e d <= G ->
  pays c flt (gde c m d) 0 (fun _ => spare (occupies d)) G 4096.
Proof.
  intros Hh (Ht & Hm & Hz).
  assert (Q : forall d, wf_dty d = true -> quiet (de c d) -> pays c flt (de c d) 0 (fun _ => spare (occupies d)) G 4096).
  { intros d0 Hd0 Hq. unfold spare. destruct (occupies d0) eqn:E; [apply rich_quiet; [exact Hq|apply occupies_de; assumption]|apply pays_quiet; [exact Hq|intros; apply N.le_refl]]. }
  assert (BV : 12 <= G -> pays c flt (g_vec c 1 de_u8) 0 (fun _ => G) G 4096).
  { intros Hg. eapply rich_vec with (al := 0); [|lia]. apply rich_quiet; [apply quiet_byte|apply consumes_read; lia]. }
  induction d using dty_ind2; cbn [wf_dty]; intros Hwf; try discriminate; cbn [gde peak]; intros Hg.
  all: try (apply Q; [exact Hwf|]; cbn [de]; first [exact I
      | apply quiet_pmap; first [apply quiet_bool | apply quiet_byte | apply quiet_u16 | apply quiet_u32 | apply quiet_u64
      | apply quiet_pmap; first [apply quiet_byte | apply quiet_u16 | apply quiet_u32 | apply quiet_u64]
      | apply quiet_date | apply quiet_date_time | intros ?; exact I]]; fail).
  all: cbn [occupies]; try change (spare true) with G.
  all: try (apply pays_pmap; eapply pays_weaken; [first [apply rich_char; assumption|apply rich_string; assumption|apply rich_buffer; assumption|apply BV; assumption]
      |apply N.le_refl|intros; apply N.le_refl|apply N.le_refl|lia]; fail).
  - apply (Q DIsize); [reflexivity|]. cbn [de]. apply quiet_pmap, quiet_bind; [apply quiet_pmap, quiet_u64|]. intros z. destruct (in_s _ z); exact I.
  - apply (Q DUsize); [reflexivity|]. cbn [de]. apply quiet_pmap, quiet_bind; [apply quiet_u64|]. intros z. destruct (z <? _); exact I.
  - apply pays_pmap. apply (rich_option _ 0 (occupies d)); [lia|reflexivity|]. apply IHd; assumption.
  - apply pays_pmap, IHd; assumption.
  - apply pays_pmap. specialize (IHd Hwf). destruct (occupies d) eqn:E.
    + eapply rich_vec with (al := 0); [apply IHd; lia|lia].
    + rewrite (Hz d E). apply flat_vec, IHd. lia.
  - apply pays_pmap. rewrite <- (added_zero ds). apply (rich_sequence (gde c m) (fun _ => 0) occupies). rewrite Forall_forall in *. rewrite forallb_forall in Hwf.
    intros d Hd. apply (H d Hd); [apply Hwf, Hd|]. pose proof (largest_in (peak c m e) _ _ Hd). lia.
  - apply pays_pmap. rewrite <- (added_zero ds). apply (rich_sequence (gde c m) (fun _ => 0) occupies). rewrite Forall_forall in *. rewrite forallb_forall in Hwf.
    intros d Hd. apply (H d Hd); [apply Hwf, Hd|]. pose proof (largest_in (peak c m e) _ _ Hd). lia.
  - apply pays_pmap. eapply pays_weaken; [eapply (rich_map m e (m_size m d) (gde c m d) 0); [exact Ht|exact Hm|lia|lia|apply IHd; [exact Hwf|lia]]|lia|intros; apply N.le_refl|lia|lia].
  - apply andb_prop in Hwf as [Hk Hfs]. apply andb_prop in Hk as [Hk Hn]. destruct (list_eq_dec string_dec keys (map fst fs)) as [->|]; [|discriminate].
    apply nodupb_NoDup in Hn. rewrite forallb_forall in Hfs. rewrite Forall_forall in H.
    apply pays_pmap. rewrite <- (added_zero fs). apply (rich_struct (gde c m) (fun _ => 0) occupies); [exact Hn|].
    apply Forall_forall. intros nf Hin. apply (H nf Hin); [apply Hfs, Hin|]. pose proof (largest_in (fun nf => peak c m e (snd nf)) _ _ Hin). cbv beta in *. lia.
  - apply andb_prop in Hwf as [_ Hfs]. rewrite forallb_forall in Hfs. rewrite Forall_forall in H.
    apply (rich_enum (fun v i => pmap (variant_sval (fst v) i) (gde c m (snd v))) (fun _ => 0) (fun v => occupies (snd v))).
    apply Forall_forall. intros v Hin. split; [lia|]. split; [reflexivity|]. intros i. apply pays_pmap. specialize (Hfs _ Hin). apply andb_prop in Hfs as [_ Hfs].
    apply (H v Hin); [exact Hfs|]. pose proof (largest_in (fun v => peak c m e (snd v)) _ _ Hin). cbv beta in *. lia.
  - apply pays_pmap. eapply pays_bind; [apply BV, Hg|]. cbv beta. intros [|b bs]; [apply pays_ret, N.le_refl|].
    eapply pays_bind with (mid := fun _ => G); [apply pays_quiet; [apply quiet_pmap, quiet_u64|intros; apply N.le_refl]|]. intros z. apply pays_ret, N.le_refl.
Qed.

(** ** Recursive types *)
Lemma boxes_none l lead t : xoccupies t = false -> boxes l lead t = 0.
Proof.
  induction t using xty_ind2; cbn [xoccupies boxes]; intros E; try reflexivity; try discriminate.
  - apply IHt, E.
  - unfold added. revert E. induction H as [|t ts Ht _ IH]; cbn [existsb fold_right]; [reflexivity|]. intros E. apply orb_false_iff in E as [E1 E2]. rewrite (Ht E1), (IH E2). reflexivity.
  - unfold added. revert E. induction H as [|t ts Ht _ IH]; cbn [existsb fold_right]; [reflexivity|]. intros E. apply orb_false_iff in E as [E1 E2]. rewrite (Ht E1), (IH E2). reflexivity.
  - unfold added. revert E. induction H as [|t ts Ht _ IH]; cbn [existsb fold_right]; [reflexivity|]. intros E. apply orb_false_iff in E as [E1 E2]. rewrite (Ht E1), (IH E2). reflexivity.
Qed.
Lemma rich_box {A} size (p : prog A) al pe : pays c flt p al (fun _ => G) G pe -> pays c flt (g_box size p) (size + al) (fun _ => G) G pe.
Proof.
  intros H. unfold g_box. destruct (N.eqb_spec size 0) as [->|_]; [exact H|].
  apply (pays_with _ _ _ _ size) in H. eapply pays_bind; [exact H|]. intros v. cbv beta. apply pays_alloc, pays_ret, N.le_refl.
Qed.
Lemma xpeak_pays l e lead call t : 4096 <= heap_limit c -> sound_layout l e -> wf_dty (SpecRec.resolve (fun _ => SpecRec.never) t) = true ->
  xpeak c l e lead t <= G -> (forall i, pays c flt (call i) (lead i) (fun _ => G) G 4096) ->
  pays c flt (gxde c l call t) (boxes l lead t) (fun _ => spare (xoccupies t)) G 4096.
Proof.
  intros Hh [Hs Hz] Hwf Hg Hcall. pose proof Hs as (Ht & Hm & _).
  induction t using xty_ind2; cbn [SpecRec.resolve wf_dty] in Hwf; cbn [xpeak] in Hg; cbn [gxde boxes xoccupies]; try change (spare true) with G.
  - apply (peak_pays (l_mem l) e); assumption.
  - apply pays_pmap. apply (rich_option _ (boxes l lead t) (xoccupies t)); [lia|apply boxes_none|]. apply IHt; [exact Hwf|lia].
  - apply pays_pmap, IHt; assumption.
  - apply pays_pmap. assert (Hg' : xpeak c l e lead t <= G) by lia. specialize (IHt Hwf Hg'). destruct (xoccupies t) eqn:E.
    + eapply rich_vec; [exact IHt|lia].
    + rewrite (Hz t E). rewrite boxes_none in IHt by exact E. apply flat_vec, IHt.
  - apply pays_pmap. eapply pays_weaken; [eapply (rich_map (l_mem l) e (l_size l t) _ (boxes l lead t)); [exact Ht|exact Hm|lia|lia|apply IHt; [exact Hwf|lia]]|lia|intros; apply N.le_refl|lia|lia].
  - apply pays_pmap. apply (rich_sequence (gxde c l call) (boxes l lead) xoccupies). rewrite Forall_forall in *. rewrite forallb_forall in Hwf.
    intros t Hin. apply (H t Hin); [exact (Hwf _ (in_map _ _ _ Hin))|]. pose proof (largest_in (xpeak c l e lead) _ _ Hin). lia.
  - apply pays_pmap. apply (rich_sequence (gxde c l call) (boxes l lead) xoccupies). rewrite Forall_forall in *. rewrite forallb_forall in Hwf.
    intros t Hin. apply (H t Hin); [exact (Hwf _ (in_map _ _ _ Hin))|]. pose proof (largest_in (xpeak c l e lead) _ _ Hin). lia.
  - rewrite map_map in Hwf. cbn [fst] in Hwf. change (map (fun x : string * xty => fst x) fs) with (map fst fs) in Hwf.
    apply andb_prop in Hwf as [Hk Hfs]. apply andb_prop in Hk as [Hk Hn]. destruct (list_eq_dec string_dec keys (map fst fs)) as [->|]; [|discriminate].
    apply nodupb_NoDup in Hn. rewrite forallb_forall in Hfs. rewrite Forall_forall in H.
    apply pays_pmap. apply (rich_struct (gxde c l call) (boxes l lead) xoccupies); [exact Hn|].
    apply Forall_forall. intros nf Hin. apply (H nf Hin); [exact (Hfs _ (in_map (fun nf => (fst nf, SpecRec.resolve (fun _ => SpecRec.never) (snd nf))) _ _ Hin))|].
    pose proof (largest_in (fun nf => xpeak c l e lead (snd nf)) _ _ Hin). cbv beta in *. lia.
  - apply andb_prop in Hwf as [_ Hfs]. rewrite forallb_forall in Hfs. rewrite Forall_forall in H.
    apply (rich_enum (fun v i => pmap (variant_sval (fst v) i) (gxde c l call (snd v))) (fun v => boxes l lead (snd v)) (fun v => xoccupies (snd v))).
    apply Forall_forall. intros v Hin. pose proof (largest_in (fun v => N.max (boxes l lead (snd v)) (xpeak c l e lead (snd v))) _ _ Hin) as M. cbv beta in M.
    split; [lia|]. split; [apply boxes_none|]. intros i. apply pays_pmap.
    specialize (Hfs _ (in_map (fun kd => (fst kd, SpecRec.resolve (fun _ => SpecRec.never) (snd kd))) _ _ Hin)). cbn [fst snd] in Hfs. apply andb_prop in Hfs as [_ Hfs].
    apply (H v Hin); [exact Hfs|lia].
  - apply rich_box, Hcall.
Qed.
End Rich.

Lemma gitem_pays c flt l e lead items : wf_cfg c -> 4096 <= heap_limit c -> sound_layout l e -> SpecRec.wf_items items -> leads l lead items ->
  forall depth i, pays c flt (gitem c l items depth i) (lead i) (fun _ => items_peak c l e lead items) (items_peak c l e lead items) 4096.
Proof.
  intros Hw Hh Hl Hi Hb. induction depth as [|n IH]; intros i; cbn [gitem]; [apply pays_crash|].
  destruct (nth_error items i) as [t|] eqn:E; [|apply pays_crash]. destruct (Hb i t E) as [Ho Hle].
  unfold SpecRec.wf_items in Hi. rewrite Forall_forall in Hi. pose proof (nth_error_In _ _ E) as Hin. destruct (Hi t Hin) as (_ & Hwf & _).
  pose proof (xpeak_pays c flt (items_peak c l e lead items) Hw l e lead (gitem c l items n) t Hh Hl Hwf (largest_in _ _ _ Hin) IH) as P.
  rewrite Ho in P. eapply pays_weaken; [exact P|exact Hle|intros; apply N.le_refl|apply N.le_refl|apply N.le_refl].
Qed.

(** ** The same outcome *)
Lemma adds_box {A} size (p q : prog A) : adds eq p q -> adds eq (g_box size p) q.
Proof.
  intros H. unfold g_box. destruct (size =? 0); [exact H|]. induction H; cbn [bind]; try (constructor; auto; fail). apply ad_more. constructor. exact H.
Qed.
Lemma gxde_adds c l call call' t : (forall i, adds eq (call i) (call' i)) -> adds eq (gxde c l call t) (xde c call' t).
Proof.
  intros Hc. induction t using xty_ind2; cbn [gxde xde].
  - apply gde_adds.
  - apply adds_pmap, adds_then; [apply adds_same|]. intros [|]; [apply adds_pmap, IHt|apply adds_same].
  - apply adds_pmap, IHt.
  - apply adds_pmap, adds_vec, IHt.
  - apply adds_pmap, adds_then; [apply adds_same|]. intros n. apply adds_map_n, IHt.
  - apply adds_pmap, adds_sequence, F2_map_both. assumption.
  - apply adds_pmap, adds_sequence, F2_map_both. assumption.
  - apply adds_pmap. unfold de_struct. rewrite !map_map. apply adds_then; [|intros; apply adds_same].
    apply adds_struct_loop, F2_map_both. eapply Forall_impl; [|eassumption]. cbn [fst snd]. auto.
  - apply adds_then; [apply adds_same|]. intros i. rewrite !pickN_map. destruct (pickN vs i) as [[k d]|] eqn:E; [|apply adds_same]. cbn [option_map].
    apply pickN_some in E as [Hin _]. rewrite Forall_forall in H. apply adds_pmap, (H _ Hin).
  - apply adds_box, Hc.
Qed.
Lemma gitem_adds c l items depth i : adds eq (gitem c l items depth i) (item_de c items depth i).
Proof.
  revert i. induction depth as [|n IH]; intros i; cbn [gitem item_de]; [apply adds_same|]. destruct (nth_error items i) as [t|]; [|apply adds_same]. apply gxde_adds, IH.
Qed.

(** ** Theorems *)
Lemma peak_asked c m e d s : wf_cfg c -> 4096 <= heap_limit c -> sound_mem m e -> wf_dty d = true -> bytes_ok s ->
  match run c (gde c m d) s with
  | OOk v r => lenN r <= lenN s /\ total (allocs c (gde c m d) s) <= peak c m e d * (lenN s - lenN r)
  | _ => total (allocs c (gde c m d) s) <= peak c m e d * lenN s + 4096
  end.
Proof.
  intros Hw Hh Hm Hd Hs. assert (H := peak_pays c (fun _ => true) (peak c m e d) Hw m e d Hh Hm Hd (N.le_refl _) s Hs). rewrite cost_all in H.
  destruct (run c (gde c m d) s); [destruct H; split|..]; lia.
Qed.
Lemma peak_spare c m e d s v r : wf_cfg c -> 4096 <= heap_limit c -> sound_mem m e -> wf_dty d = true -> bytes_ok s ->
  occupies d = true -> run c (gde c m d) s = OOk v r ->
  lenN r < lenN s /\ total (allocs c (gde c m d) s) <= peak c m e d * (lenN s - lenN r - 1).
Proof.
  intros Hw Hh Hm Hd Hs Ho E. assert (H := peak_pays c (fun _ => true) (peak c m e d) Hw m e d Hh Hm Hd (N.le_refl _) s Hs). rewrite cost_all, E in H.
  destruct H as [_ H]. rewrite Ho in H. cbn [spare] in H.
  destruct (adds_run c _ _ (gde_adds c m d) s) as [E'|(n & x & _ & _ & E')]; [|rewrite E in E'; discriminate]. rewrite E in E'. symmetry in E'.
  destruct (occupies_de c d Hd Ho s v r Hs E') as (n & H1 & H2). assert (L : lenN s - lenN r = n) by lia. rewrite L in H. rewrite L, N.mul_sub_distr_l. split; lia.
Qed.
Lemma nest_asked c m e d n w s v r : wf_cfg c -> 4096 <= heap_limit c -> sound_mem m e -> wf_dty d = true -> bytes_ok s ->
  (forall d, m_size m (DVec d) <= w) -> run c (gde c m (nest n d)) s = OOk v r ->
  total (allocs c (gde c m (nest n d)) s) <= N.max (12 * N.max w (m_size m d)) (peak c m e d) * (lenN s - lenN r).
Proof.
  intros Hw Hh Hm Hd Hs Hv E.
  assert (W : wf_dty (nest n d) = true) by (clear E; induction n; [exact Hd|exact IHn]).
  assert (P : peak c m e (nest n d) <= N.max (12 * N.max w (m_size m d)) (peak c m e d)).
  { clear E W. unfold nest. induction n as [|n IH]; [change (Nat.iter 0 DVec d) with d; lia|]. change (Nat.iter (S n) DVec d) with (DVec (Nat.iter n DVec d)). cbn [peak].
    assert (m_size m (Nat.iter n DVec d) <= N.max w (m_size m d)).
    { destruct n as [|n]; [change (Nat.iter 0 DVec d) with d; lia|]. change (Nat.iter (S n) DVec d) with (DVec (Nat.iter n DVec d)). specialize (Hv (Nat.iter n DVec d)). lia. }
    lia. }
  assert (H := peak_asked c m e (nest n d) s Hw Hh Hm W Hs). rewrite E in H. destruct H as [_ H]. eapply N.le_trans; [exact H|]. apply N.mul_le_mono_r, P.
Qed.
(** Nothing is refused if all of it fits. *)
Lemma fits_enough {A} c (p q : prog A) s n : adds eq p q -> total (allocs c p s) <= n -> n <= heap_limit c -> heap_limit c <= isize_max c -> run c p s = run c q s.
Proof.
  intros Ha Ht H1 H2. destruct (adds_run c _ _ Ha s) as [E|(k & x & Hn & Hr & _)]; [exact E|exfalso]. apply total_member in Hn.
  unfold alloc_result in Hr. destruct (N.ltb_spec (isize_max c) k); [lia|]. destruct (N.ltb_spec (heap_limit c) k); [lia|]. discriminate.
Qed.
Lemma peak_enough c m e d s : wf_cfg c -> 4096 <= heap_limit c -> sound_mem m e -> wf_dty d = true -> bytes_ok s ->
  peak c m e d * lenN s + 4096 <= heap_limit c -> heap_limit c <= isize_max c -> run c (gde c m d) s = run c (de c d) s.
Proof.
  intros Hw Hh Hm Hd Hs H1 H2. eapply fits_enough; [apply gde_adds| |exact H1|exact H2].
  assert (H := peak_asked c m e d s Hw Hh Hm Hd Hs). destruct (run c (gde c m d) s) as [v r|y|y]; [|lia..]. destruct H as [_ H].
  assert (peak c m e d * (lenN s - lenN r) <= peak c m e d * lenN s) by (apply N.mul_le_mono_l; lia). lia.
Qed.
Lemma occupies_resolve f t : (forall i, occupies (f i) = true) -> occupies (SpecRec.resolve f t) = xoccupies t.
Proof.
  intros Hf. induction t using xty_ind2; cbn [SpecRec.resolve occupies xoccupies]; try reflexivity; auto.
  - induction H as [|t ts Ht _ IH]; cbn [map existsb]; [reflexivity|]. rewrite Ht, IH. reflexivity.
  - induction H as [|t ts Ht _ IH]; cbn [map existsb]; [reflexivity|]. rewrite Ht, IH. reflexivity.
  - induction H as [|t ts Ht _ IH]; cbn [map existsb snd]; [reflexivity|]. rewrite Ht, IH. reflexivity.
Qed.
Lemma occupies_levels l lead items : leads l lead items -> forall depth i, occupies (SpecRec.levels items depth i) = true.
Proof.
  intros Hb. induction depth as [|n IH]; intros i; cbn [SpecRec.levels]; [reflexivity|]. destruct (nth_error items i) as [t|] eqn:E; [|reflexivity].
  rewrite occupies_resolve by exact IH. apply (Hb i t E).
Qed.
Lemma item_short c items (Hi : SpecRec.wf_items items) l lead : leads l lead items -> forall depth i, consumes c (item_de c items depth i) (fun _ n => 1 <= n).
Proof.
  intros Hb depth i s v r Hs E. destruct (shadow_levels c items depth i Hi s) as [E'|[E' _]]; rewrite E in E'; [|discriminate]. symmetry in E'.
  exact (occupies_de c _ (wf_levels items depth i Hi) (occupies_levels l lead items Hb depth i) s v r Hs E').
Qed.
Lemma item_asked c l e lead items depth i s :
  wf_cfg c -> 4096 <= heap_limit c -> sound_layout l e -> SpecRec.wf_items items -> leads l lead items -> bytes_ok s ->
  match run c (gitem c l items depth i) s with
  | OOk v r => lenN r < lenN s /\ total (allocs c (gitem c l items depth i) s) <= lead i + items_peak c l e lead items * (lenN s - lenN r - 1)
  | _ => total (allocs c (gitem c l items depth i) s) <= lead i + items_peak c l e lead items * lenN s + 4096
  end.
Proof.
  intros Hw Hh Hl Hi Hb Hs. assert (H := gitem_pays c (fun _ => true) l e lead items Hw Hh Hl Hi Hb depth i s Hs). rewrite cost_all in H.
  destruct (run c (gitem c l items depth i) s) as [v r|x|x] eqn:E; [|lia..]. destruct H as [_ H].
  destruct (adds_run c _ _ (gitem_adds c l items depth i) s) as [E'|(n & x & _ & _ & E')]; [|rewrite E in E'; discriminate]. rewrite E in E'. symmetry in E'.
  destruct (item_short c items Hi l lead Hb depth i s v r Hs E') as (n & H1 & H2). assert (L : lenN s - lenN r = n) by lia. rewrite L in H. rewrite L, N.mul_sub_distr_l. split; lia.
Qed.
Lemma item_enough c l e lead items depth i s :
  wf_cfg c -> 4096 <= heap_limit c -> sound_layout l e -> SpecRec.wf_items items -> leads l lead items -> bytes_ok s ->
  lead i + items_peak c l e lead items * lenN s + 4096 <= heap_limit c -> heap_limit c <= isize_max c ->
  run c (gitem c l items depth i) s = run c (item_de c items depth i) s.
Proof.
  intros Hw Hh Hl Hi Hb Hs H1 H2. eapply fits_enough; [apply gitem_adds| |exact H1|exact H2].
  assert (H := item_asked c l e lead items depth i s Hw Hh Hl Hi Hb Hs). destruct (run c (gitem c l items depth i) s) as [v r|y|y]; [|lia..]. destruct H as [_ H].
  assert (items_peak c l e lead items * (lenN s - lenN r - 1) <= items_peak c l e lead items * lenN s) by (apply N.mul_le_mono_l; lia). lia.
Qed.
