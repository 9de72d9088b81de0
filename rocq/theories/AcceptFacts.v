(** * Proofs: the decoders accept exactly the specified byte strings. *)
From Coq Require Import String Sorted.
From Verif Require Import Base BaseFacts SpecVarint Varint VarintFacts ZigZagFacts SpecUtf8 Utf8 Utf8Facts Serde Typing
  PrimFacts SerdeFacts SerdeMore SerdeSize SerdeProps SpecMap MapFacts TextFacts ArchFacts Header HeaderFacts Body SpecBody BodyFacts SpecAccept.
Local Open Scope list_scope.
Local Open Scope N_scope.

(** [lang c p R]: p returns a, leaving r, exactly when the input is u ++ r with R u a. *)
Definition lang {A} (c : cfg) (p : prog A) (R : list N -> A -> Prop) : Prop :=
  forall s a r, bytes_ok s -> (run c p s = OOk a r <-> exists u, s = u ++ r /\ R u a).

Lemma lang_ext {A} c (p : prog A) (R Q : list N -> A -> Prop) :
  lang c p R -> (forall u a, bytes_ok u -> (R u a <-> Q u a)) -> lang c p Q.
Proof.
  intros Hp H s a r Hs. rewrite (Hp s a r Hs). split; intros (u & -> & Hu); exists u; (split; [reflexivity|]);
    apply Forall_app in Hs as [Hs _]; apply (H u a Hs), Hu.
Qed.
Lemma lang_run {A} c (p q : prog A) (R : list N -> A -> Prop) :
  (forall s, run c p s = run c q s) -> lang c q R -> lang c p R.
Proof. intros H Hq s a r Hs. rewrite H. apply Hq, Hs. Qed.
Lemma lang_run_ok {A} c (p q : prog A) (R : list N -> A -> Prop) :
  (forall s, bytes_ok s -> run c p s = run c q s) -> lang c q R -> lang c p R.
Proof. intros H Hq s a r Hs. rewrite H by exact Hs. apply Hq, Hs. Qed.
Lemma lang_Ret {A} c (a : A) : lang c (Ret a) (fun u b => u = [] /\ b = a).
Proof.
  intros s b r Hs; cbn [run]. split.
  - intros H; injection H as <- <-. exists []; auto.
  - intros (u & -> & -> & ->). reflexivity.
Qed.
Lemma lang_none {A} c (p : prog A) : (forall s a r, bytes_ok s -> run c p s <> OOk a r) -> lang c p (fun _ _ => False).
Proof. intros H s a r Hs. split; [intros E; destruct (H s a r Hs E)|intros (u & _ & [])]. Qed.
Lemma lang_Fail {A} c e : @lang A c (Fail e) (fun _ _ => False).
Proof. apply lang_none; discriminate. Qed.
Lemma lang_Crash {A} c q : @lang A c (Crash q) (fun _ _ => False).
Proof. apply lang_none; discriminate. Qed.
Lemma lang_bind {A B} c (p : prog A) (f : A -> prog B) (R : list N -> A -> Prop) (Q : A -> list N -> B -> Prop) :
  lang c p R -> (forall a u, bytes_ok u -> R u a -> lang c (f a) (Q a)) ->
  lang c (bind p f) (fun u b => exists x y a, u = x ++ y /\ R x a /\ Q a y b).
Proof.
  intros Hp Hf s b r Hs. split.
  - intros H. apply run_bind_ok in H as (a & r1 & H1 & H2). pose proof (run_rest _ _ _ _ _ Hs H1) as Hr.
    apply (Hp s a r1 Hs) in H1 as (x & -> & Hx). apply Forall_app in Hs as [Hxb _].
    apply (Hf a x Hxb Hx r1 b r Hr) in H2 as (y & -> & Hy).
    exists (x ++ y). split; [apply app_assoc|]. exists x, y, a; auto.
  - intros (u & -> & x & y & a & -> & Hx & Hy). rewrite <- app_assoc in *.
    rewrite run_bind, (proj2 (Hp (x ++ y ++ r) a (y ++ r) Hs)) by (exists x; auto). cbn [obind].
    apply Forall_app in Hs as [Hxb Hs]. apply (Hf a x Hxb Hx); [exact Hs|]. exists y; auto.
Qed.
Lemma lang_pmap {A B} c (f : A -> B) (p : prog A) (R : list N -> A -> Prop) :
  lang c p R -> lang c (pmap f p) (fun u b => exists a, R u a /\ b = f a).
Proof.
  intros Hp s b r Hs. split.
  - intros H. apply run_pmap_ok in H as (a & H & ->). apply (Hp s a r Hs) in H as (u & -> & Hu). eauto.
  - intros (u & -> & a & Hu & ->). rewrite run_pmap, (proj2 (Hp (u ++ r) a r Hs)) by eauto. reflexivity.
Qed.
Lemma lang_ReadExact {A} c n e (k : list N -> prog A) (Q : list N -> list N -> A -> Prop) :
  (forall bs, bytes_ok bs -> lenN bs = n -> lang c (k bs) (Q bs)) ->
  lang c (ReadExact n e k) (fun u a => exists x y, u = x ++ y /\ lenN x = n /\ Q x y a).
Proof.
  intros Hk s a r Hs. cbn [run]. split.
  - destruct (N.ltb_spec (lenN s) n) as [H|H]; [discriminate|]. intros E.
    assert (Hl : lenN (takeN n s) = n) by (rewrite lenN_takeN; lia).
    apply (Hk _ (Forall_takeN _ n s Hs) Hl _ _ _ (Forall_dropN _ n s Hs)) in E as (y & E & Hy).
    exists (takeN n s ++ y). split; [rewrite <- app_assoc, <- E; symmetry; apply take_drop|].
    exists (takeN n s), y; auto.
  - intros (u & -> & x & y & -> & Hl & Hy). rewrite <- app_assoc in *.
    destruct (N.ltb_spec (lenN (x ++ y ++ r)) n) as [H|_]; [rewrite lenN_app in H; lia|].
    rewrite takeN_app_n, dropN_app_n by exact Hl. apply Forall_app in Hs as [Hx Hs].
    apply (Hk x Hx Hl); [exact Hs|]. eauto.
Qed.
Lemma lang_Alloc {A} c n (k : prog A) (R : list N -> A -> Prop) :
  lang c k R -> lang c (Alloc n k) (fun u a => alloc_result c n = None /\ R u a).
Proof.
  intros Hk s a r Hs. cbn [run]. destruct (alloc_result c n) as [q|].
  - split; [discriminate|]. intros (u & _ & H & _); discriminate.
  - rewrite (Hk s a r Hs). split; intros (u & E & H); exists u; (split; [exact E|]); [auto|apply H].
Qed.

(** ** Varints *)
Lemma lang_varint c (p : prog N) m : (forall s, bytes_ok s -> run c p s = varint_run m ERead s) -> lang c p (code m).
Proof.
  intros H s a r Hs. rewrite (H s Hs). split.
  - intros E. apply varint_run_inv in E as (q & u & -> & Hq & Hu & Hl & ->); [|exact Hs].
    exists (q :: u). split; [reflexivity|]. exists q, u; auto.
  - intros (u & -> & q & t & -> & Hl & ->). cbn [app varint_run].
    destruct (N.ltb_spec (lenN (t ++ r)) (N.of_nat (varint_extra m q))) as [E|_].
    + rewrite lenN_app in E. unfold lenN in E. lia.
    + rewrite takeN_app_n, dropN_app_n by (unfold lenN; congruence). reflexivity.
Qed.
Lemma lang_u16 c : lang c (dec_u16 ERead) (code 2).
Proof. apply lang_varint. intros s Hs. apply dec_u16_run, bytes_guard, Hs. Qed.
Lemma lang_u32 c : lang c (dec_u32 ERead) (code 4).
Proof. apply lang_varint. intros s Hs. apply dec_u32_run, bytes_guard, Hs. Qed.
Lemma lang_u64 c : lang c (dec_u64 ERead) (code 8).
Proof. apply lang_varint. intros s Hs. apply dec_u64_run, bytes_guard, Hs. Qed.
Lemma code_bound m u n : varint_m m -> bytes_ok u -> code m u n -> n < 2 ^ (8 * N.of_nat m).
Proof.
  intros Hm Hu (p & t & -> & Hl & ->). apply (varint_run_bound m ERead (p :: t) _ [] Hm Hu).
  cbn [varint_run]. destruct (N.ltb_spec (lenN t) (N.of_nat (varint_extra m p))) as [E|_]; [unfold lenN in E; lia|].
  rewrite takeN_all, dropN_all by (unfold lenN; lia). reflexivity.
Qed.
Lemma code2_bound u n : bytes_ok u -> code 2 u n -> n < 2 ^ 16.
Proof. apply (code_bound 2). left; reflexivity. Qed.
Lemma code4_bound u n : bytes_ok u -> code 4 u n -> n < 2 ^ 32.
Proof. apply (code_bound 4). right; left; reflexivity. Qed.
Lemma code8_bound u n : bytes_ok u -> code 8 u n -> n < 2 ^ 64.
Proof. apply (code_bound 8). right; right; reflexivity. Qed.

Ltac lang_same := intros u a Hu; split; [intros (n & Hn & ->)|intros (n & Hn & ->)].
Lemma lang_i16 c : lang c de_i16 (fun u z => exists n, code 2 u n /\ z = unzigzag n).
Proof.
  eapply lang_ext; [apply lang_pmap, lang_u16|]. lang_same; exists n; (split; [exact Hn|]).
  - apply dec_zigzag_spec; [lia|eapply code2_bound; eassumption].
  - symmetry; apply dec_zigzag_spec; [lia|eapply code2_bound; eassumption].
Qed.
Lemma lang_i32 c : lang c de_i32 (fun u z => exists n, code 4 u n /\ z = unzigzag n).
Proof.
  eapply lang_ext; [apply lang_pmap, lang_u32|]. lang_same; exists n; (split; [exact Hn|]).
  - apply dec_zigzag_spec; [lia|eapply code4_bound; eassumption].
  - symmetry; apply dec_zigzag_spec; [lia|eapply code4_bound; eassumption].
Qed.
Lemma lang_i64 c : lang c de_i64 (fun u z => exists n, code 8 u n /\ z = unzigzag n).
Proof.
  eapply lang_ext; [apply lang_pmap, lang_u64|]. lang_same; exists n; (split; [exact Hn|]).
  - apply dec_zigzag_spec; [lia|eapply code8_bound; eassumption].
  - symmetry; apply dec_zigzag_spec; [lia|eapply code8_bound; eassumption].
Qed.
Lemma len1 (x : list N) : lenN x = 1 -> exists b, x = [b].
Proof. destruct x as [|b [|b' x]]; rewrite ?lenN_cons, ?lenN_nil; try lia. intros _; eauto. Qed.
Lemma lang_byte c : lang c de_byte (fun u b => u = [b]).
Proof.
  eapply lang_ext; [apply lang_ReadExact with (Q := fun x y b => y = [] /\ b = at_ x 0); intros bs _ _; apply lang_Ret|].
  cbv beta. intros u a Hu. split.
  - intros (x & y & -> & Hx & -> & ->). apply len1 in Hx as [b ->]. reflexivity.
  - intros ->. exists [a], []. auto.
Qed.
Lemma lang_i8 c : lang c de_i8 (fun u z => exists b, u = [b] /\ z = signed8 b).
Proof.
  assert (E : forall b, b < 256 -> as_i 8 b = signed8 b).
  { intros b Hb. unfold as_i, wrap_s, signed8. change (2 ^ Z.of_N 8)%Z with 256%Z. change (2 ^ (Z.of_N 8 - 1))%Z with 128%Z.
    destruct (N.ltb_spec b 128).
    - rewrite Z.mod_small by lia. lia.
    - replace (Z.of_N b + 128)%Z with (Z.of_N b - 128 + 1 * 256)%Z by lia. rewrite Z_mod_plus_full, Z.mod_small by lia. lia. }
  eapply lang_ext; [apply lang_pmap, lang_byte|]. lang_same; exists n; (split; [exact Hn|]); subst u; inversion Hu as [|x y Hb]; subst.
  - apply E, Hb.
  - symmetry; apply E, Hb.
Qed.
Lemma lang_bool c : lang c de_bool (fun u b => u = [if b : bool then 1 else 0]).
Proof.
  eapply lang_ext.
  - apply lang_bind with (Q := fun n y b => y = [] /\ n = if b : bool then 1 else 0); [apply lang_byte|].
    intros n u _ _. destruct (N.eqb_spec n 0) as [->|H0]; [|destruct (N.eqb_spec n 1) as [->|H1]].
    + eapply lang_ext; [apply lang_Ret|]. intros y [|] _; intuition congruence.
    + eapply lang_ext; [apply lang_Ret|]. intros y [|] _; intuition congruence.
    + eapply lang_ext; [apply lang_Fail|]. intros y [|] _; intuition congruence.
  - cbv beta. intros u b _. split.
    + intros (x & y & a & -> & -> & -> & ->). reflexivity.
    + intros ->. eexists _, [], _. split; [symmetry; apply app_nil_r|auto].
Qed.
Lemma lang_float c n : lang c (ReadExact n ERead (fun b => Ret (of_le b))) (fun u v => lenN u = n /\ v = le_value u).
Proof.
  eapply lang_ext; [apply lang_ReadExact with (Q := fun x y b => y = [] /\ b = of_le x); intros bs _ _; apply lang_Ret|].
  cbv beta. intros u a Hu. split.
  - intros (x & y & -> & Hx & -> & ->). rewrite app_nil_r. split; [exact Hx|apply of_le_value].
  - intros [H ->]. exists u, []. rewrite app_nil_r. split; [reflexivity|]. split; [exact H|]. split; [reflexivity|symmetry; apply of_le_value].
Qed.

(** ** Fields of structs *)
Fixpoint assoc {A} (k : string) (l : list (string * A)) : option A :=
  match l with [] => None | (n, a) :: t => if String.eqb k n then Some a else assoc k t end.
Definition slots_of {A B} (fs : list (string * A)) (read : list (string * B)) : list (option B) := map (fun f => assoc (fst f) read) fs.
Lemma assoc_none {A} k (l : list (string * A)) : assoc k l = None <-> ~ In k (map fst l).
Proof.
  induction l as [|[n a] l IH]; cbn [assoc map fst In]; [tauto|]. destruct (String.eqb_spec k n) as [->|H].
  - split; [discriminate|tauto].
  - rewrite IH. intuition congruence.
Qed.
Lemma assoc_in {A} k (l : list (string * A)) a : NoDup (map fst l) -> (assoc k l = Some a <-> In (k, a) l).
Proof.
  induction l as [|[n b] l IH]; cbn [assoc map fst In]; intros Hn; [split; [discriminate|tauto]|].
  inversion Hn as [|? ? Hi Hn']; subst. destruct (String.eqb_spec k n) as [->|H].
  - split; [intros E; injection E as ->; auto|]. intros [E|E]; [congruence|]. exfalso. apply Hi, in_map_iff. exists (n, a); auto.
  - rewrite (IH Hn'). intuition congruence.
Qed.
Lemma assoc_app {A} k (l m : list (string * A)) : assoc k (l ++ m) = match assoc k l with Some a => Some a | None => assoc k m end.
Proof. induction l as [|[n a] l IH]; cbn [assoc app]; [reflexivity|]. destruct (String.eqb k n); auto. Qed.
Lemma find_none {A} k (fs : list (string * A)) : find_field k fs = None <-> ~ In k (map fst fs).
Proof.
  induction fs as [|[n a] fs IH]; cbn [find_field map fst In]; [tauto|]. destruct (String.eqb_spec k n) as [->|H].
  - split; [discriminate|tauto].
  - destruct (find_field k fs) as [[i x]|].
    + split; [discriminate|]. intros E. assert (X : ~ In k (map fst fs)) by tauto. apply IH in X. discriminate.
    + split; [|reflexivity]. intros _ [E|E]; [congruence|]. exact (proj1 IH eq_refl E).
Qed.
Lemma slots_nth {A B} (fs : list (string * A)) (read : list (string * B)) i k a : nth_error fs i = Some (k, a) ->
  nth_error (slots_of fs read) i = Some (assoc k read).
Proof. intros H. unfold slots_of. rewrite nth_error_map, H. reflexivity. Qed.
Lemma slots_set {A B} (fs : list (string * A)) (read : list (string * B)) i k a v : NoDup (map fst fs) -> nth_error fs i = Some (k, a) ->
  assoc k read = None -> set_slot i v (slots_of fs read) = slots_of fs (read ++ [(k, v)]).
Proof.
  intros Hn Hi Hr.
  assert (X : forall l : list (string * A), ~ In k (map fst l) -> slots_of l read = slots_of l (read ++ [(k, v)])).
  { intros l Hl. apply map_ext_in. intros [n b] Hb. cbn [fst]. rewrite assoc_app. destruct (assoc n read); [reflexivity|]. cbn [assoc].
    destruct (String.eqb_spec n k) as [->|_]; [|reflexivity]. exfalso. apply Hl, in_map_iff. exists (k, b); auto. }
  revert i Hi. induction fs as [|[n b] fs IH]; intros [|i] Hi; cbn [nth_error] in Hi; try discriminate; inversion Hn as [|? ? Hni Hn']; subst;
    cbn [slots_of map set_slot fst].
  - injection Hi as -> ->. rewrite assoc_app, Hr. cbn [assoc]. rewrite String.eqb_refl. f_equal. apply X, Hni.
  - f_equal; [|apply IH; assumption]. rewrite assoc_app. destruct (assoc n read); [reflexivity|]. cbn [assoc].
    destruct (String.eqb_spec n k) as [->|_]; [|reflexivity]. exfalso. apply Hni, in_map_iff. exists (k, a). split; [reflexivity|]. eapply nth_error_In, Hi.
Qed.
Lemma map_fst_combine {A B} (l : list A) (m : list B) : length l = length m -> map fst (combine l m) = l.
Proof. revert m; induction l as [|a l IH]; intros [|b m] H; cbn in *; try discriminate; [reflexivity|]. f_equal. apply IH. lia. Qed.
Lemma fill_missing_cases (fs : list (string * dty)) (read : list (string * sval)) : NoDup (map fst read) ->
  let p := fill_missing (map (fun nf => missing (snd nf)) fs) (slots_of fs read) in
  (exists ws, p = Ret ws /\ (forall ws', Forall2 (field_value read) fs ws' <-> ws' = ws) /\
     (forall k d, In (k, d) fs -> ~ In k (map fst read) -> exists d', d = DOption d')) \/
  (p = Fail EMsg /\ (forall ws', ~ Forall2 (field_value read) fs ws') /\
   exists k d, In (k, d) fs /\ ~ In k (map fst read) /\ forall d', d <> DOption d').
Proof.
  intros Hn. cbv zeta. induction fs as [|[n d] fs IH]; cbn [map slots_of fill_missing fst snd].
  - left. exists []. split; [reflexivity|]. split; [|intros k d []].
    intros ws'; split; [intros H; inversion H; reflexivity|intros ->; constructor].
  - fold (slots_of fs read).
    assert (K : forall a, (forall w, field_value read (n, d) w <-> w = a) -> (In n (map fst read) \/ exists d', d = DOption d') ->
      let p := l <- fill_missing (map (fun nf => missing (snd nf)) fs) (slots_of fs read) ;; Ret (a :: l) in
      (exists ws, p = Ret ws /\ (forall ws', Forall2 (field_value read) ((n, d) :: fs) ws' <-> ws' = ws) /\
         (forall k d0, In (k, d0) ((n, d) :: fs) -> ~ In k (map fst read) -> exists d', d0 = DOption d')) \/
      (p = Fail EMsg /\ (forall ws', ~ Forall2 (field_value read) ((n, d) :: fs) ws') /\
       exists k d0, In (k, d0) ((n, d) :: fs) /\ ~ In k (map fst read) /\ forall d', d0 <> DOption d')).
    { intros a Ha Ho. cbv zeta. destruct IH as [(ws & -> & Hws & Hm)|(-> & Hws & k & d0 & H1 & H2)]; cbn [bind].
      - left. exists (a :: ws). split; [reflexivity|]. split.
        + intros ws'; split.
          * intros H; inversion H as [|? w ? l Hw Hl]; subst. apply Ha in Hw as ->. apply Hws in Hl as ->. reflexivity.
          * intros ->. constructor; [apply Ha; reflexivity|apply Hws; reflexivity].
        + intros k d0 [E|E] Hk; [|eauto]. injection E as <- <-. destruct Ho as [Ho|Ho]; [contradiction|exact Ho].
      - right. split; [reflexivity|]. split; [|exists k, d0; split; [right; exact H1|exact H2]].
        intros ws' H; inversion H as [|? w ? l Hw Hl]; subst. exact (Hws _ Hl). }
    destruct (assoc n read) as [a|] eqn:E.
    + apply K.
      * apply assoc_in in E as E'; [|exact Hn]. intros w; unfold field_value; cbn [fst snd]. split; [|intros ->; auto].
        intros [H|[H _]]; [apply assoc_in in H; [congruence|exact Hn]|]. exfalso. apply H, in_map_iff. exists (n, a); auto.
      * left. apply assoc_in in E; [|exact Hn]. apply in_map_iff. exists (n, a); auto.
    + apply assoc_none in E. assert (V : forall w, field_value read (n, d) w <-> w = SNone /\ exists d', d = DOption d').
      { intros w; unfold field_value; cbn [fst snd]. split; [|intros [-> H]; auto]. intros [H|[_ H]]; [|exact H].
        exfalso. apply E, in_map_iff. exists (n, w); auto. }
      destruct (missing d) as [a|] eqn:Em.
      * apply K; [|right; destruct d; try discriminate; eauto]. intros w. rewrite V. destruct d; try discriminate. injection Em as <-.
        split; [tauto|]. intros ->; eauto.
      * right. assert (D : forall d', d <> DOption d') by (intros d' ->; discriminate Em). split; [reflexivity|]. split.
        -- intros ws' H; inversion H as [|? w ? l Hw _]; subst. apply V in Hw as [_ [d' ->]]. exact (D d' eq_refl).
        -- exists n, d. split; [left; reflexivity|]. auto.
Qed.

(** ** Strings and bytes *)
Section Bits64.
Variable c : cfg.
Hypothesis Hw : wf_cfg c.
Hypothesis H64 : usize_bits c = 64.
Hypothesis Hh : 4096 <= heap_limit c.

Lemma usize_64 n : n < 2 ^ 64 -> as_usize c n = n.
Proof. intros H. apply as_usize_id. rewrite H64. exact H. Qed.
Lemma lang_str_body n : n < 2 ^ 64 -> lang c (de_str_body c n) (fun u bs => u = bs /\ lenN bs = n /\ wellformed bs).
Proof.
  intros Hn s bs r Hs. rewrite str_body_run by apply usize_64, Hn. split.
  - destruct (N.ltb_spec (lenN s) n) as [H|H]; [discriminate|]. destruct (utf8_valid (takeN n s)) eqn:E; [|discriminate]. cbn [orb negb].
    intros X; injection X as <- <-. exists (takeN n s). split; [symmetry; apply take_drop|]. split; [reflexivity|].
    split; [rewrite lenN_takeN; lia|apply utf8_valid_iff, E].
  - intros (u & -> & -> & Hl & Hv). rewrite takeN_app_n, dropN_app_n by exact Hl. apply utf8_valid_iff in Hv. rewrite Hv.
    destruct (N.ltb_spec (lenN (bs ++ r)) n) as [H|H]; [rewrite lenN_app in H; lia|reflexivity].
Qed.
Lemma lang_buf_body n : n < 2 ^ 64 -> lang c (de_buf_body c n) (fun u bs => u = bs /\ lenN bs = n).
Proof.
  intros Hn s bs r Hs. rewrite buf_body_run, buf_total_exact by (try assumption; apply usize_64, Hn). split.
  - destruct (N.ltb_spec (lenN s) n) as [H|H]; [discriminate|].
    intros X; injection X as <- <-. exists (takeN n s). split; [symmetry; apply take_drop|]. split; [reflexivity|].
    rewrite lenN_takeN; lia.
  - intros (u & -> & -> & Hl). rewrite takeN_app_n, dropN_app_n by exact Hl.
    destruct (N.ltb_spec (lenN (bs ++ r)) n) as [H|H]; [rewrite lenN_app in H; lia|reflexivity].
Qed.
Lemma lang_string : lang c (de_string c) (fun u bs => block u bs /\ wellformed bs).
Proof.
  rewrite de_string_unfold. eapply lang_ext; [apply lang_bind; [apply lang_u64|]; intros n u Hu Hn; apply lang_str_body; eapply code8_bound; eassumption|].
  cbv beta. intros u bs _. split.
  - intros (x & y & n & -> & Hx & -> & <- & Hv). split; [exists x; auto|exact Hv].
  - intros [(l & -> & Hl) Hv]. exists l, bs, (lenN bs). auto.
Qed.
Lemma lang_byte_buf : lang c (de_byte_buf c) block.
Proof.
  rewrite de_byte_buf_unfold. eapply lang_ext; [apply lang_bind; [apply lang_u64|]; intros n u Hu Hn; apply lang_buf_body; eapply code8_bound; eassumption|].
  cbv beta. intros u bs _. split.
  - intros (x & y & n & -> & Hx & -> & <-). exists x; auto.
  - intros (l & -> & Hl). exists l, bs, (lenN bs). auto.
Qed.
Lemma lang_char : lang c (de_char c) (fun u ch => scalar ch /\ exists t, wellformed t /\ block u (utf8 ch ++ t)).
Proof.
  unfold de_char. eapply lang_ext.
  - apply lang_bind with (Q := fun bs y ch => y = [] /\ next_char bs = Some ch); [apply lang_string|].
    intros bs u _ [_ Hv]. destruct (next_char bs) as [ch|].
    + eapply lang_ext; [apply lang_Ret|]. intros y b _. intuition congruence.
    + eapply lang_ext; [apply lang_Fail|]. intros y b _. intuition congruence.
  - cbv beta. intros u ch _. split.
    + intros (x & y & bs & -> & [Hb Hv] & -> & Hc). rewrite app_nil_r. destruct Hv as (cs & Hcs & ->).
      destruct Hcs as [|c0 cs Hc0 Hcs]; [discriminate|]. cbn [map concat] in *. rewrite next_char_utf8 in Hc by exact Hc0. injection Hc as ->.
      split; [exact Hc0|]. exists (concat (map utf8 cs)). split; [exists cs; auto|exact Hb].
    + intros (Hc & t & Ht & Hb). exists u, [], (utf8 ch ++ t). rewrite app_nil_r. split; [reflexivity|]. split.
      * split; [exact Hb|]. destruct Ht as (cs & Hcs & ->). exists (ch :: cs). split; [constructor; assumption|reflexivity].
      * split; [reflexivity|apply next_char_utf8, Hc].
Qed.

(** ** Sequences *)
Inductive many {A} (R : list N -> A -> Prop) : list N -> list A -> Prop :=
| many_nil : many R [] []
| many_cons u a w l : R u a -> many R w l -> many R (u ++ w) (a :: l).
Lemma lang_rep {A} (p : prog A) R n : lang c p R -> lang c (rep n p) (fun u l => length l = n /\ many R u l).
Proof.
  intros Hp. induction n as [|n IH]; cbn [rep].
  - eapply lang_ext; [apply lang_Ret|]. cbv beta. intros u l _. split.
    + intros [-> ->]. split; [reflexivity|constructor].
    + intros [Hl Hm]. destruct l; [|discriminate]. inversion Hm; auto.
  - eapply lang_ext; [apply lang_bind; [exact Hp|]; intros a u _ _; apply lang_bind; [exact IH|]; intros l w _ _; apply lang_Ret|].
    cbv beta. intros u l _. split.
    + intros (x & y & a & -> & Ha & z & w & l' & -> & [Hl Hm] & -> & ->). rewrite app_nil_r. split; [cbn [length]; congruence|constructor; assumption].
    + intros [Hl Hm]. destruct Hm as [|u a w l Ha Hm]; [discriminate|]. exists u, w, a. split; [reflexivity|]. split; [exact Ha|].
      exists w, [], l. rewrite app_nil_r. repeat split; auto.
Qed.
Lemma lang_vec {A} (p : prog A) R : lang c p R -> lang c (de_vec c p) (fun u l => exists x y, u = x ++ y /\ code 8 x (lenN l) /\ many R y l).
Proof.
  intros Hp. unfold de_vec. eapply lang_ext.
  - apply lang_bind; [apply lang_u64|]. intros n u Hu Hn. rewrite usize_64 by (eapply code8_bound; eassumption).
    eapply lang_run; [intros; apply run_repeatN|]. apply (lang_rep p R (N.to_nat n) Hp).
  - cbv beta. intros u l _. split.
    + intros (x & y & n & -> & Hx & Hl & Hm). exists x, y. split; [reflexivity|]. split; [|exact Hm].
      replace (lenN l) with n by (unfold lenN; lia). exact Hx.
    + intros (x & y & -> & Hx & Hm). exists x, y, (lenN l). split; [reflexivity|]. split; [exact Hx|]. split; [unfold lenN; lia|exact Hm].
Qed.
Lemma many_bytes u bs : many (fun u b => u = [b]) u bs <-> u = bs.
Proof.
  split.
  - induction 1 as [|u b w l -> _ IH]; [reflexivity|]. cbn [app]. f_equal; exact IH.
  - intros ->. induction bs as [|b bs IH]; [constructor|]. change (b :: bs) with ([b] ++ bs). constructor; [reflexivity|exact IH].
Qed.
Lemma lang_big : lang c (de_big c) block.
Proof.
  eapply lang_ext; [apply lang_vec, lang_byte|]. cbv beta. intros u bs _. split.
  - intros (x & y & -> & Hx & Hm). apply many_bytes in Hm as ->. exists x; auto.
  - intros (l & -> & Hl). exists l, bs. split; [reflexivity|]. split; [exact Hl|apply many_bytes; reflexivity].
Qed.
Lemma lang_map {A} (p : prog A) R : lang c p R ->
  lang c (de_map c p) (fun u m => exists x y es, u = x ++ y /\ code 8 x (lenN es) /\
    many (fun u kv => exists a b, u = a ++ b /\ wellformed (fst kv) /\ block a (fst kv) /\ R b (snd kv)) y es /\ m = insert_all es []).
Proof.
  intros Hp. unfold de_map, de_map_n.
  pose (q := k <- de_string c ;; v <- p ;; Ret (k, v)).
  assert (Hq : lang c q (fun u kv => exists a b, u = a ++ b /\ wellformed (fst kv) /\ block a (fst kv) /\ R b (snd kv))).
  { unfold q. eapply lang_ext; [apply lang_bind; [apply lang_string|]; intros k u _ _; apply lang_bind; [exact Hp|]; intros v w _ _; apply lang_Ret|].
    cbv beta. intros u [k v] _. cbn [fst snd]. split.
    - intros (x & y & k' & -> & [Hb Hv] & z & w & v' & -> & Hr & -> & E). injection E as -> ->. exists x, z. rewrite app_nil_r. auto.
    - intros (a & b & -> & Hv & Hb & Hr). exists a, b, k. split; [reflexivity|]. split; [auto|]. exists b, [], v. rewrite app_nil_r. auto. }
  eapply lang_ext.
  - apply lang_bind; [apply lang_u64|]. intros n u Hu Hn. rewrite usize_64 by (eapply code8_bound; eassumption).
    eapply lang_run with (q := pmap (fun es => insert_all es []) (rep (N.to_nat n) q)).
    + intros s. rewrite run_foldN, (iter_insert c _ q), run_pmap; [reflexivity|]. intros m i. unfold q.
      rewrite !run_bind, obind_obind. apply obind_ext; intros k r. rewrite !run_bind, obind_obind. reflexivity.
    + apply lang_pmap. apply (lang_rep q _ (N.to_nat n) Hq).
  - cbv beta. intros u m _. split.
    + intros (x & y & n & -> & Hx & es & [Hl Hm] & ->). exists x, y, es. split; [reflexivity|]. split; [|auto].
      replace (lenN es) with n by (unfold lenN; lia). exact Hx.
    + intros (x & y & es & -> & Hx & Hm & ->). exists x, y, (lenN es). split; [reflexivity|]. split; [exact Hx|]. exists es.
      split; [split; [unfold lenN; lia|exact Hm]|reflexivity].
Qed.

(** ** Every supported type *)
Lemma lex_sorted_keys {V} (m : list (list N * V)) : StronglySorted lex_lt (map fst m) -> sorted_keys m = true.
Proof.
  induction m as [|[k v] m IH]; intros H; [reflexivity|]. inversion H as [|? ? Hs Hf]; subst. specialize (IH Hs). cbn [sorted_keys].
  destruct m as [|[k' v'] m]; [reflexivity|]. inversion Hf as [|? ? Hk _]; subst. apply bytes_cmp_lt_iff in Hk. rewrite Hk. exact IH.
Qed.
Lemma insert_all_iff {V} (es m : list (list N * V)) : m = insert_all es [] <->
  StronglySorted lex_lt (map fst m) /\ forall k, last_binding k m = last_binding k es.
Proof.
  assert (Hs : sorted_keys (insert_all es []) = true) by (apply insert_all_sorted_out; reflexivity).
  assert (Hl : forall k, last_binding k (insert_all es []) = last_binding k es).
  { intros k. rewrite <- lookup_last by exact Hs. rewrite lookup_insert_all. destruct (last_binding k es); reflexivity. }
  split.
  - intros ->. split; [apply sorted_keys_lex, Hs|exact Hl].
  - intros [H1 H2]. apply lex_sorted_keys in H1. apply sorted_lookup_ext; [assumption..|]. intros k.
    rewrite !lookup_last by assumption. rewrite H2, Hl. reflexivity.
Qed.
Lemma many_all d u vs : many (accepts c d) u vs <-> accepts_all c (map (fun _ => d) vs) u vs.
Proof.
  split.
  - induction 1 as [|u a w l Ha _ IH]; cbn [map]; constructor; assumption.
  - revert u. induction vs as [|v vs IH]; intros u H; cbn [map] in H; inversion H; subst; constructor; auto.
Qed.
Lemma many_entries d u es :
  many (fun u kv => exists a b, u = a ++ b /\ wellformed (fst kv) /\ block a (fst kv) /\ accepts c d b (snd kv)) u es <-> accepts_entries c d u es.
Proof.
  split.
  - induction 1 as [|u [k v] w l Ha _ IH]; [constructor|]. cbn [fst snd] in Ha. destruct Ha as (a & b & -> & H1 & H2 & H3).
    rewrite <- app_assoc. constructor; assumption.
  - revert u. induction es as [|[k v] es IH]; intros u H; inversion H; subst; [constructor|]. rewrite app_assoc. constructor; [|auto].
    cbn [fst snd]. do 2 eexists. split; [reflexivity|]. auto.
Qed.
Lemma lang_all ds : Forall (fun d => lang c (de c d) (accepts c d)) ds -> lang c (sequence (map (de c) ds)) (accepts_all c ds).
Proof.
  induction 1 as [|d ds Hd _ IH]; cbn [map sequence].
  - eapply lang_ext; [apply lang_Ret|]. cbv beta. intros u l _. split; [intros [-> ->]; constructor|intros H; inversion H; auto].
  - eapply lang_ext; [apply lang_bind; [exact Hd|]; intros a u _ _; apply lang_bind; [exact IH|]; intros l w _ _; apply lang_Ret|].
    cbv beta. intros u l _. split.
    + intros (x & y & a & -> & Ha & z & w & l' & -> & Hm & -> & ->). rewrite app_nil_r. constructor; assumption.
    + intros H; inversion H as [|? ? x y a l' Ha Hm]; subst. exists x, y, a. split; [reflexivity|]. split; [exact Ha|].
      exists y, [], l'. rewrite app_nil_r. auto.
Qed.
Lemma lang_date : lang c (de_date c) (fun u yo => exists l k y o, u = l ++ k /\ code 4 l y /\ code 2 k o /\
  arith_s c 32 (unzigzag y + 2000) = Some (fst yo) /\ arith_u c 16 (Z.of_N o + 1) = Some (snd yo)).
Proof.
  unfold de_date. eapply lang_ext.
  - apply lang_bind with (Q := fun y0 x (yo : Z * N) => exists o, code 2 x o /\ arith_s c 32 (y0 + 2000) = Some (fst yo) /\ arith_u c 16 (Z.of_N o + 1) = Some (snd yo));
      [apply lang_i32|].
    intros y0 u _ _. change YEAR_OFFSET with 2000%Z. change (Z.of_N ORDINAL_OFFSET) with 1%Z.
    destruct (arith_s c 32 (y0 + 2000)) as [y|]; cbn [or_overflow bind].
    + eapply lang_ext.
      * apply lang_bind with (Q := fun o x (yo : Z * N) => x = [] /\ y = fst yo /\ arith_u c 16 (Z.of_N o + 1) = Some (snd yo)); [apply lang_u16|].
        intros o w _ _. destruct (arith_u c 16 (Z.of_N o + 1)) as [o'|]; cbn [or_overflow bind].
        -- eapply lang_ext; [apply lang_Ret|]. intros x [a b] _; cbn [fst snd]. intuition congruence.
        -- eapply lang_ext; [apply lang_Crash|]. intros x [a b] _. intuition congruence.
      * cbv beta. intros x [a b] _; cbn [fst snd]. split.
        -- intros (x1 & x2 & o & -> & H1 & -> & -> & H2). rewrite app_nil_r. eauto.
        -- intros (o & H1 & H2 & H3). exists x, [], o. rewrite app_nil_r. intuition congruence.
    + eapply lang_ext; [apply lang_Crash|]. intros x [a b] _. split; [intros []|]. intros (o & _ & H & _). discriminate.
  - cbv beta. intros u [y o] _; cbn [fst snd]. split.
    + intros (x & z & a & -> & (n & Hn & ->) & o' & Ho & H1 & H2). exists x, z, n, o'. auto.
    + intros (l & k & n & o' & -> & H1 & H2 & H3 & H4). exists l, k, (unzigzag n). split; [reflexivity|]. split; [eauto|]. eauto.
Qed.
Lemma lang_date_time : lang c de_date_time (fun u tn => exists l k t, u = l ++ k /\ code 8 l t /\ code 4 k (snd tn) /\ fst tn = unzigzag t).
Proof.
  unfold de_date_time. eapply lang_ext; [apply lang_bind; [apply lang_i64|]; intros t u _ _; apply lang_bind; [apply lang_u32|]; intros n w _ _; apply lang_Ret|].
  cbv beta. intros u [t n] _; cbn [fst snd]. split.
  - intros (x & y & a & -> & (m & Hm & ->) & z & w & n' & -> & Hn & -> & E). injection E as -> ->. rewrite app_nil_r. exists x, z, m. auto.
  - intros (l & k & m & -> & H1 & H2 & ->). exists l, k, (unzigzag m). split; [reflexivity|]. split; [eauto|]. exists k, [], n. rewrite app_nil_r. auto.
Qed.
Lemma lang_decimal : lang c (de_big_decimal c) (fun u p => (code 8 u 0 /\ p = ([], 0%Z)) \/
  (exists x l n, u = x ++ l /\ fst p <> [] /\ block x (fst p) /\ code 8 l n /\ snd p = unzigzag n)).
Proof.
  unfold de_big_decimal. eapply lang_ext.
  - apply lang_bind with (Q := fun bs y p => (bs = [] /\ y = [] /\ p = ([], 0%Z)) \/ (bs <> [] /\ bs = fst p /\ exists n, code 8 y n /\ snd p = unzigzag n)); [apply lang_big|].
    intros [|b bs] u _ _.
    + eapply lang_ext; [apply lang_Ret|]. cbv beta. intros y p _. intuition congruence.
    + eapply lang_ext; [apply lang_bind; [apply lang_i64|]; intros z w _ _; apply lang_Ret|].
      cbv beta. intros y [d z] _. cbn [fst snd]. split.
      * intros (x1 & x2 & a & -> & (n & Hn & ->) & -> & E). injection E as -> ->. rewrite app_nil_r. right. split; [discriminate|]. eauto.
      * intros [(E & _)|(_ & <- & n & Hn & ->)]; [discriminate|]. exists y, [], (unzigzag n). rewrite app_nil_r. split; [reflexivity|]. split; [eauto|auto].
  - cbv beta. intros u p _. split.
    + intros (x & y & bs & -> & Hb & [(-> & -> & ->)|(Hne & -> & n & Hn & E)]).
      * left. destruct Hb as (l & -> & Hl). rewrite !app_nil_r. auto.
      * right. exists x, y, n. auto.
    + intros [(H & ->)|(x & l & n & -> & Hne & Hb & Hn & E)].
      * exists u, [], []. rewrite app_nil_r. split; [reflexivity|]. split; [exists u; rewrite app_nil_r; auto|left; auto].
      * exists x, l, (fst p). split; [reflexivity|]. split; [exact Hb|]. right. eauto.
Qed.
Lemma date_range_iff y o : in_s 32 y = true -> o < 2 ^ 16 ->
  (date_range c y o <-> exists y' o', arith_s c 32 (y + 2000) = Some y' /\ arith_u c 16 (Z.of_N o + 1) = Some o').
Proof.
  intros Hy Ho. unfold date_range, arith_s, arith_u. apply in_s_iff in Hy.
  change (2 ^ (Z.of_N 32 - 1))%Z with 2147483648%Z in *. change (2 ^ 31)%Z with 2147483648%Z in *. change (2 ^ 16) with 65536 in *. change (2 ^ Z.of_N 16)%Z with 65536%Z.
  destruct (overflow_checks c).
  - split.
    + intros H. destruct (H eq_refl) as [H1 H2].
      assert (in_s 32 (y + 2000) = true) as ->. { apply in_s_iff. change (2 ^ (Z.of_N 32 - 1))%Z with 2147483648%Z. lia. }
      assert (((0 <=? Z.of_N o + 1) && (Z.of_N o + 1 <? 65536))%Z = true) as -> by lia. eauto.
    + intros (y' & o' & H1 & H2) _. destruct (in_s 32 (y + 2000)) eqn:E; [|discriminate]. apply in_s_iff in E.
      change (2 ^ (Z.of_N 32 - 1))%Z with 2147483648%Z in E. destruct ((0 <=? Z.of_N o + 1) && (Z.of_N o + 1 <? 65536))%Z eqn:E2; [|discriminate]. lia.
  - split; [|discriminate]. intros _. destruct (in_s 32 (y + 2000)), ((0 <=? Z.of_N o + 1) && (Z.of_N o + 1 <? 65536))%Z; eauto.
Qed.

Lemma accepts_all_length ds u vs : accepts_all c ds u vs -> length ds = length vs.
Proof. revert u vs; induction ds as [|d ds IH]; intros u vs H; inversion H; subst; cbn [length]; [reflexivity|]. f_equal. eauto. Qed.
Lemma lang_struct_loop fs : NoDup (map fst fs) -> (forall k d, In (k, d) fs -> lang c (de c d) (accepts c d)) -> forall keys read,
  lang c (struct_loop keys (map (fun nf => (fst nf, de c (snd nf))) fs) (slots_of fs read))
    (fun u sl => exists ds vs, NoDup keys /\ (forall k, In k keys -> ~ In k (map fst read)) /\ Forall2 (field_type fs) keys ds /\
       accepts_all c ds u vs /\ sl = slots_of fs (read ++ combine keys vs)).
Proof.
  intros Hn HL keys. induction keys as [|k keys IH]; intros read; cbn [struct_loop].
  - eapply lang_ext; [apply lang_Ret|]. cbv beta. intros u sl _. split.
    + intros [-> ->]. exists [], []. split; [constructor|]. split; [intros k []|]. split; [constructor|]. split; [constructor|].
      cbn [combine]. rewrite app_nil_r. reflexivity.
    + intros (ds & vs & _ & _ & HF & HA & ->). inversion HF; subst. inversion HA; subst. cbn [combine]. rewrite app_nil_r. auto.
  - destruct (find_field k (map (fun nf => (fst nf, de c (snd nf))) fs)) as [[i p]|] eqn:E.
    + apply find_field_in in E. rewrite nth_error_map in E. destruct (nth_error fs i) as [[k' d]|] eqn:Ei; [|discriminate].
      cbn [option_map fst snd] in E. injection E as -> <-. pose proof (nth_error_In _ _ Ei) as Hin.
      rewrite (slots_nth fs read i k d Ei). destruct (assoc k read) as [a|] eqn:Ea.
      * eapply lang_ext; [apply lang_Fail|]. cbv beta. intros u sl _. split; [intros []|]. intros (ds & vs & _ & Hd & _).
        apply (Hd k (or_introl eq_refl)). assert (assoc k read <> None) as X by congruence. rewrite assoc_none in X.
        destruct (in_dec string_dec k (map fst read)); [assumption|contradiction].
      * eapply lang_ext.
        -- apply lang_bind; [apply (HL k d Hin)|]. intros a w _ _. rewrite (slots_set fs read i k d a Hn Ei Ea). apply IH.
        -- cbv beta. apply assoc_none in Ea. intros u sl _. split.
           ++ intros (x & y & a & -> & Ha & ds & vs & Hnd & Hdis & HF & HA & ->). exists (d :: ds), (a :: vs).
              assert (Hk : ~ In k keys). { intros Hk. apply (Hdis k Hk). rewrite map_app. apply in_or_app. right. left. reflexivity. }
              split; [constructor; assumption|]. split.
              { intros k0 [<-|H0]; [exact Ea|]. intros X. apply (Hdis k0 H0). rewrite map_app. apply in_or_app. left. exact X. }
              split; [constructor; assumption|]. split; [constructor; assumption|]. rewrite <- app_assoc. reflexivity.
           ++ intros (ds & vs & Hnd & Hdis & HF & HA & ->). inversion HF as [|? d' ? ds' Hd' HF']; subst. inversion HA as [|? ? x y a l Ha HA']; subst.
              inversion Hnd as [|? ? Hk Hnd']; subst. assert (d' = d) as ->.
              { unfold field_type in Hd'. apply (proj2 (assoc_in k fs d' Hn)) in Hd'. apply (proj2 (assoc_in k fs d Hn)) in Hin. congruence. }
              exists x, y, a. split; [reflexivity|]. split; [exact Ha|]. exists ds', l. split; [exact Hnd'|]. split.
              { intros k0 H0. rewrite map_app. intros X. apply in_app_or in X as [X|[X|[]]]; [exact (Hdis k0 (or_intror H0) X)|]. cbn [fst] in X. congruence. }
              split; [exact HF'|]. split; [exact HA'|]. cbn [combine]. rewrite <- app_assoc. reflexivity.
    + eapply lang_ext; [apply lang_Crash|]. cbv beta. intros u sl _. split; [intros []|]. intros (ds & vs & _ & _ & HF & _).
      inversion HF as [|? d ? ds' Hd _]; subst. apply find_none in E. apply E. rewrite map_map. cbn [fst]. apply in_map_iff. exists (k, d). auto.
Qed.
Lemma lang_struct keys fs : NoDup (map fst fs) -> (forall k d, In (k, d) fs -> lang c (de c d) (accepts c d)) ->
  lang c (de c (DStruct keys fs)) (accepts c (DStruct keys fs)).
Proof.
  intros Hn HL. cbn [de]. unfold de_struct. eapply lang_ext.
  - apply lang_pmap. rewrite map_map. change (map (fun _ : string * dty => None) fs) with (slots_of fs (@nil (string * sval))).
    apply lang_bind with (Q := fun sl y ws => y = [] /\ fill_missing (map (fun nf => missing (snd nf)) fs) sl = Ret ws);
      [apply (lang_struct_loop fs Hn HL keys [])|].
    intros sl u _ (ds & vs & Hnd & _ & HF & HA & ->). cbn [app]. pose proof (accepts_all_length _ _ _ HA) as Hlen. pose proof (Forall2_length _ _ _ HF) as Hlen2.
    destruct (fill_missing_cases fs (combine keys vs)) as [(ws & -> & _)|(-> & _)]; [rewrite map_fst_combine by congruence; exact Hnd| |].
    + eapply lang_ext; [apply lang_Ret|]. cbv beta. intros y l _. intuition congruence.
    + eapply lang_ext; [apply lang_Fail|]. cbv beta. intros y l _. intuition congruence.
  - cbv beta. intros u v _. split.
    + intros (ws & (x & y & sl & -> & (ds & vs & Hnd & _ & HF & HA & ->) & -> & E) & ->). rewrite app_nil_r. cbn [app] in E.
      pose proof (accepts_all_length _ _ _ HA) as Hlen. pose proof (Forall2_length _ _ _ HF) as Hlen2.
      destruct (fill_missing_cases fs (combine keys vs)) as [(ws' & E' & Hws & _)|(E' & _)];
        [rewrite map_fst_combine by congruence; exact Hnd| |congruence].
      econstructor; [exact Hnd|exact HF|exact HA|]. apply Hws. congruence.
    + intros H; inversion H as [| | | | | | | | | | | | | | | | | | | | | | | | |ks fs' ds u' vs ws Hnd HF HA HV| | | | | | | | | |]; subst.
      pose proof (accepts_all_length _ _ _ HA) as Hlen. pose proof (Forall2_length _ _ _ HF) as Hlen2.
      exists ws. split; [|reflexivity]. exists u, [], (slots_of fs (combine keys vs)). rewrite app_nil_r. split; [reflexivity|].
      split; [exists ds, vs; split; [exact Hnd|]; split; [intros k _ []|]; auto|]. split; [reflexivity|].
      destruct (fill_missing_cases fs (combine keys vs)) as [(ws' & E' & Hws & _)|(_ & Hws & _)];
        [rewrite map_fst_combine by congruence; exact Hnd| |destruct (Hws _ HV)].
      apply Hws in HV as ->. exact E'.
Qed.

Theorem lang_de d : shaped d = true -> lang c (de c d) (accepts c d).
Proof.
  induction d using dty_ind2; intros Hwf; cbn [de];
    try (eapply lang_ext; [first [apply lang_Fail|apply lang_Crash]|intros u v _; split; [intros []|intros H; inversion H]]).
  - eapply lang_ext; [apply lang_pmap, lang_bool|]. intros u v _. split; [intros (b & -> & ->); constructor|intros H; inversion H; eauto].
  - eapply lang_ext; [apply lang_pmap, lang_i8|]. intros u v _. split; [intros (z & (b & -> & ->) & ->); constructor|intros H; inversion H; eauto].
  - eapply lang_ext; [apply lang_pmap, lang_i16|]. intros u v _. split; [intros (z & (n & Hn & ->) & ->); constructor; exact Hn|intros H; inversion H; eauto].
  - eapply lang_ext; [apply lang_pmap, lang_i32|]. intros u v _. split; [intros (z & (n & Hn & ->) & ->); constructor; exact Hn|intros H; inversion H; eauto].
  - eapply lang_ext; [apply lang_pmap, lang_i64|]. intros u v _. split; [intros (z & (n & Hn & ->) & ->); constructor; exact Hn|intros H; inversion H; eauto].
  - eapply lang_ext; [apply lang_pmap, lang_byte|]. intros u v _. split; [intros (b & -> & ->); constructor|intros H; inversion H; eauto].
  - eapply lang_ext; [apply lang_pmap, lang_u16|]. intros u v _. split; [intros (n & Hn & ->); constructor; exact Hn|intros H; inversion H; eauto].
  - eapply lang_ext; [apply lang_pmap, lang_u32|]. intros u v _. split; [intros (n & Hn & ->); constructor; exact Hn|intros H; inversion H; eauto].
  - eapply lang_ext; [apply lang_pmap, lang_u64|]. intros u v _. split; [intros (n & Hn & ->); constructor; exact Hn|intros H; inversion H; eauto].
  - (* isize *)
    eapply lang_ext.
    + apply lang_pmap. unfold de_isize. apply lang_bind with (Q := fun z y w => y = [] /\ w = z); [apply lang_i64|].
      intros z u Hu (n & Hn & ->). rewrite H64, unzigzag_in by (try lia; eapply code8_bound; eassumption). apply lang_Ret.
    + cbv beta. intros u v _. split.
      * intros (z & (x & y & a & -> & (n & Hn & ->) & -> & ->) & ->). rewrite app_nil_r. constructor; exact Hn.
      * intros H; inversion H as [| | | | | | | | | |u' n Hn| | | | | | | | | | | | | | | | | | | | | | | | | ]; subst.
        exists (unzigzag n). split; [|reflexivity]. exists u, [], (unzigzag n). rewrite app_nil_r. eauto 8.
  - (* usize *)
    eapply lang_ext.
    + apply lang_pmap. unfold de_usize. apply lang_bind with (Q := fun z y w => y = [] /\ w = z); [apply lang_u64|].
      intros n u Hu Hn. apply code8_bound in Hn; [|exact Hu]. rewrite H64. apply N.ltb_lt in Hn. rewrite Hn. apply lang_Ret.
    + cbv beta. intros u v _. split.
      * intros (z & (x & y & a & -> & Hn & -> & ->) & ->). rewrite app_nil_r. constructor; exact Hn.
      * intros H; inversion H; subst. exists n. split; [|reflexivity]. exists u, [], n. rewrite app_nil_r. auto.
  - eapply lang_ext; [apply lang_pmap, (lang_float c 4)|]. intros u v _. split.
    + intros (n & [Hn ->] & ->). constructor. unfold lenN in Hn; lia.
    + intros H; inversion H; subst. eexists; split; [|reflexivity]. split; [unfold lenN; lia|reflexivity].
  - eapply lang_ext; [apply lang_pmap, (lang_float c 8)|]. intros u v _. split.
    + intros (n & [Hn ->] & ->). constructor. unfold lenN in Hn; lia.
    + intros H; inversion H; subst. eexists; split; [|reflexivity]. split; [unfold lenN; lia|reflexivity].
  - eapply lang_ext; [apply lang_pmap, lang_char|]. intros u v _. split.
    + intros (ch & (Hc & t & Ht & Hb) & ->). econstructor; eassumption.
    + intros H; inversion H; subst. eexists; split; [|reflexivity]. split; [assumption|]. eexists; split; eassumption.
  - eapply lang_ext; [apply lang_pmap, lang_string|]. intros u v _. split.
    + intros (bs & [Hb Hv] & ->). constructor; assumption.
    + intros H; inversion H; subst. eexists; split; [|reflexivity]. split; assumption.
  - eapply lang_ext; [apply lang_pmap, lang_byte_buf|]. intros u v _. split; [intros (bs & Hb & ->); constructor; exact Hb|intros H; inversion H; eauto].
  - (* option *)
    eapply lang_ext.
    + apply lang_pmap. unfold de_option. apply lang_bind with (Q := fun b y o => match o with Some v => b = true /\ accepts c d y v | None => b = false /\ y = [] end); [apply lang_bool|].
      intros [|] u _ _.
      * eapply lang_ext; [apply lang_pmap, IHd, Hwf|]. cbv beta. intros y [v|] _; split.
        -- intros (a & Ha & E). injection E as ->. auto.
        -- intros [_ H]. eauto.
        -- intros (a & _ & E). discriminate.
        -- intros [E _]. discriminate.
      * eapply lang_ext; [apply lang_Ret|]. cbv beta. intros y [v|] _; intuition congruence.
    + cbv beta. intros u v _. split.
      * intros ([w|] & (x & y & b & -> & -> & H) & ->); destruct H as [-> H]; [constructor; exact H|subst y; constructor].
      * intros H; inversion H; subst.
        -- exists None. split; [|reflexivity]. exists [0], [], false. auto.
        -- eexists (Some _). split; [|reflexivity]. eexists [1], _, true. split; [reflexivity|]. split; [reflexivity|]. eauto.
  - eapply lang_ext; [apply lang_Ret|]. intros u v _. split; [intros [-> ->]; constructor|intros H; inversion H; auto].
  - eapply lang_ext; [apply lang_Ret|]. intros u v _. split; [intros [-> ->]; constructor|intros H; inversion H; auto].
  - eapply lang_ext; [apply lang_pmap, IHd, Hwf|]. intros u v _. split; [intros (w & Hw' & ->); constructor; exact Hw'|intros H; inversion H; eauto].
  - (* vec *)
    eapply lang_ext; [apply lang_pmap, lang_vec, IHd, Hwf|]. cbv beta. intros u v _. split.
    + intros (l & (x & y & -> & Hx & Hm) & ->). constructor; [exact Hx|apply many_all, Hm].
    + intros H; inversion H; subst. eexists; split; [|reflexivity]. do 2 eexists. split; [reflexivity|]. split; [eassumption|]. apply many_all. assumption.
  - (* tuple *)
    cbn [shaped] in Hwf. rewrite forallb_forall in Hwf. rewrite Forall_forall in H.
    eapply lang_ext; [apply lang_pmap, lang_all, Forall_forall; intros d Hd; apply (H d Hd), Hwf, Hd|]. cbv beta. intros u v _.
    split; [intros (l & Hl & ->); constructor; exact Hl|intros E; inversion E; eauto].
  - cbn [shaped] in Hwf. rewrite forallb_forall in Hwf. rewrite Forall_forall in H.
    eapply lang_ext; [apply lang_pmap, lang_all, Forall_forall; intros d Hd; apply (H d Hd), Hwf, Hd|]. cbv beta. intros u v _.
    split; [intros (l & Hl & ->); constructor; exact Hl|intros E; inversion E; eauto].
  - (* map *)
    eapply lang_ext; [apply lang_pmap, lang_map, IHd, Hwf|]. cbv beta. intros u v _. split.
    + intros (m & (x & y & es & -> & Hx & Hm & E) & ->). apply insert_all_iff in E as [E1 E2].
      apply ac_map with (es := es); [exact Hx|apply many_entries, Hm|exact E1|exact E2].
    + intros H; inversion H as [| | | | | | | | | | | | | | | | | | | | | | | |d' l w es m Hc He Hs Hl| | | | | | | | | | |]; subst.
      exists m. split; [|reflexivity]. exists l, w, es. split; [reflexivity|]. split; [exact Hc|].
      split; [apply many_entries, He|]. apply insert_all_iff. auto.
  - (* struct *)
    cbn [shaped] in Hwf. apply andb_prop in Hwf as [Hnd Hfs]. apply nodupb_NoDup in Hnd. rewrite forallb_forall in Hfs. rewrite Forall_forall in H.
    apply lang_struct; [exact Hnd|]. intros k d Hd. exact (H (k, d) Hd (Hfs (k, d) Hd)).
  - (* enum *)
    cbn [shaped] in Hwf. rename Hwf into Hvs. rewrite forallb_forall in Hvs. rewrite Forall_forall in H. unfold de_enum.
    assert (HL : forall k d, In (k, d) vs -> lang c (de c d) (accepts c d)).
    { intros k d Hin. specialize (Hvs _ Hin). apply andb_prop in Hvs as [_ Hd]. apply (H _ Hin), Hd. }
    assert (HS : forall k d, In (k, d) vs -> payload_shape k d = true).
    { intros k d Hin. specialize (Hvs _ Hin). apply andb_prop in Hvs as [Hd _]. exact Hd. }
    eapply lang_ext.
    + apply lang_bind with (Q := fun i y v => exists k d w, pickN vs i = Some (k, d) /\ accepts c d y w /\ v = variant_sval k i w); [apply lang_u16|].
      intros i u _ _. rewrite pickN_map. destruct (pickN vs i) as [[k d]|] eqn:E; cbn [option_map fst snd].
      * eapply lang_ext; [apply lang_pmap, (HL k d), (pickN_some _ _ _ E)|]. cbv beta. intros y v _. split.
        -- intros (w & Hw' & ->). exists k, d, w. auto.
        -- intros (k' & d' & w & E' & Hw' & ->). injection E' as <- <-. eauto.
      * eapply lang_ext; [apply lang_Fail|]. cbv beta. intros y v _. split; [intros []|]. intros (k & d & w & E' & _). discriminate.
    + cbv beta. intros u v _. split.
      * intros (x & y & i & -> & Hx & k & d & w & E & Hw' & ->). pose proof (HS k d (proj1 (pickN_some _ _ _ E))) as Hsh.
        destruct k; cbn [variant_sval].
        -- destruct d; try discriminate. inversion Hw'; subst. rewrite app_nil_r. constructor; assumption.
        -- econstructor; eassumption.
        -- destruct d; try discriminate. inversion Hw'; subst. econstructor; eassumption.
        -- destruct d; try discriminate. inversion Hw'; subst. eapply ac_struct_variant; eassumption.
      * intros E; inversion E; subst.
        -- exists u, [], i. rewrite app_nil_r. split; [reflexivity|]. split; [assumption|]. exists KUnit, DUnit, SUnit. split; [assumption|]. split; [constructor|reflexivity].
        -- exists l, u0, i. split; [reflexivity|]. split; [assumption|]. exists KNewtype, d, v0. auto.
        -- exists l, u0, i. split; [reflexivity|]. split; [assumption|]. exists KTuple, (DTuple ds), (STuple xs). split; [assumption|]. split; [constructor; assumption|reflexivity].
        -- exists l, u0, i. split; [reflexivity|]. split; [assumption|].
           exists KStruct, (DStruct keys fields), (SStruct xs). split; [assumption|]. split; [assumption|reflexivity].
  - eapply lang_ext; [apply lang_pmap, lang_big|]. intros u v _. split; [intros (bs & Hb & ->); apply ac_biguint, Hb|intros H; inversion H; subst; eexists; split; [eassumption|reflexivity]].
  - eapply lang_ext; [apply lang_pmap, lang_big|]. intros u v _. split; [intros (bs & Hb & ->); apply ac_bigint, Hb|intros H; inversion H; subst; eexists; split; [eassumption|reflexivity]].
  - eapply lang_ext; [apply lang_pmap, lang_decimal|]. intros u v _. split.
    + intros (p & [(H & ->)|(x & l & n & -> & Hne & Hb & Hn & E)] & ->); [constructor; exact H|].
      destruct p as [bs z]. cbn [fst snd] in *. subst z. destruct bs as [|b bs]; [congruence|]. cbn [big_decimal_sval].
      apply ac_decimal; [discriminate|exact Hb|exact Hn].
    + intros H; inversion H; subst.
      * exists ([], 0%Z). split; [left; auto|reflexivity].
      * eexists (bs, unzigzag n). split; [right; do 3 eexists; split; [reflexivity|]; cbn [fst snd]; split; [assumption|]; split; [eassumption|]; split; [eassumption|reflexivity]|].
        cbn [fst snd]. destruct bs; [congruence|reflexivity].
  - (* date *)
    eapply lang_ext; [apply lang_pmap, lang_date|]. cbv beta. intros u v Hu. split.
    + intros ([y' o'] & (l & k & y & o & -> & Hl & Hk & E1 & E2) & ->). cbn [fst snd] in *. apply Forall_app in Hu as [Hul Huk].
      pose proof (code4_bound _ _ Hul Hl) as Hy. pose proof (code2_bound _ _ Huk Hk) as Ho.
      assert (Hin : in_s 32 (unzigzag y) = true) by (apply unzigzag_in; [lia|exact Hy]).
      unfold date_sval. rewrite (arith_s_inv c _ _ Hin E1), (arith_u_inv c _ _ Ho E2). constructor; [assumption..|].
      apply date_range_iff; eauto.
    + intros H; inversion H as [| | | | | | | | | | | | | | | | | | | | | | | | | | | | | | | | | |l k y o Hl Hk Hr|]; subst. apply Forall_app in Hu as [Hul Huk].
      pose proof (code4_bound _ _ Hul Hl) as Hy. pose proof (code2_bound _ _ Huk Hk) as Ho.
      assert (Hin : in_s 32 (unzigzag y) = true) by (apply unzigzag_in; [lia|exact Hy]).
      apply date_range_iff in Hr as (y' & o' & E1 & E2); [|exact Hin|exact Ho].
      exists (y', o'). split; [exists l, k, y, o; auto|]. unfold date_sval. cbn [fst snd].
      rewrite (arith_s_inv c _ _ Hin E1), (arith_u_inv c _ _ Ho E2). reflexivity.
  - eapply lang_ext; [apply lang_pmap, lang_date_time|]. cbv beta. intros u v _. split.
    + intros ([t n] & (l & k & z & -> & Hl & Hk & E) & ->). cbn [fst snd] in *. subst t. constructor; assumption.
    + intros H; inversion H; subst. eexists (unzigzag t, n). split; [|reflexivity]. do 3 eexists. split; [reflexivity|]. split; [eassumption|]. split; [assumption|reflexivity].
Qed.

(** ** Bodies *)
Lemma many_bodies h u vs : many (body_accepts c h) u vs <-> bodies_accept c (map (fun _ => h) vs) u vs.
Proof.
  split.
  - induction 1 as [|u a w l Ha _ IH]; cbn [map]; constructor; assumption.
  - revert u. induction vs as [|v vs IH]; intros u H; cbn [map] in H; inversion H; subst; constructor; auto.
Qed.
Lemma many_body_entries h u es :
  many (fun u kv => exists a b, u = a ++ b /\ wellformed (fst kv) /\ block a (fst kv) /\ body_accepts c h b (snd kv)) u es <-> body_entries_accept c h u es.
Proof.
  split.
  - induction 1 as [|u [k v] w l Ha _ IH]; [constructor|]. cbn [fst snd] in Ha. destruct Ha as (a & b & -> & H1 & H2 & H3).
    rewrite <- app_assoc. constructor; assumption.
  - revert u. induction es as [|[k v] es IH]; intros u H; inversion H; subst; [constructor|]. rewrite app_assoc. constructor; [|auto].
    cbn [fst snd]. do 2 eexists. split; [reflexivity|]. auto.
Qed.
Lemma lang_bodies hs : Forall (fun h => lang c (bde c h) (body_accepts c h)) hs -> lang c (sequence (map (bde c) hs)) (bodies_accept c hs).
Proof.
  induction 1 as [|d ds Hd _ IH]; cbn [map sequence].
  - eapply lang_ext; [apply lang_Ret|]. cbv beta. intros u l _. split; [intros [-> ->]; constructor|intros H; inversion H; auto].
  - eapply lang_ext; [apply lang_bind; [exact Hd|]; intros a u _ _; apply lang_bind; [exact IH|]; intros l w _ _; apply lang_Ret|].
    cbv beta. intros u l _. split.
    + intros (x & y & a & -> & Ha & z & w & l' & -> & Hm & -> & ->). rewrite app_nil_r. constructor; assumption.
    + intros H; inversion H as [|? ? x y a l' Ha Hm]; subst. exists x, y, a. split; [reflexivity|]. split; [exact Ha|].
      exists y, [], l'. rewrite app_nil_r. auto.
Qed.
Lemma date_values y o y' o' : in_s 32 y = true -> o < 2 ^ 16 ->
  (arith_s c 32 (y + 2000) = Some y' /\ arith_u c 16 (Z.of_N o + 1) = Some o' <->
   date_range c y o /\ y' = date_year y /\ o' = date_ordinal o).
Proof.
  intros Hy Ho. rewrite (date_range_iff y o Hy Ho).
  assert (E1 : forall z, arith_s c 32 (y + 2000) = Some z -> z = date_year y).
  { intros z. unfold arith_s, date_year. apply in_s_iff in Hy. change (2 ^ (Z.of_N 32 - 1))%Z with 2147483648%Z in Hy.
    change (2 ^ 31)%Z with 2147483648%Z. change (2 ^ 32)%Z with 4294967296%Z. destruct (in_s 32 (y + 2000)) eqn:E.
    - intros H; injection H as <-. apply in_s_iff in E. change (2 ^ (Z.of_N 32 - 1))%Z with 2147483648%Z in E.
      destruct (Z.ltb_spec (y + 2000) 2147483648); lia.
    - destruct (overflow_checks c); [discriminate|]. intros H; injection H as <-.
      destruct (Z.ltb_spec (y + 2000) 2147483648) as [H|H].
      + exfalso. assert (in_s 32 (y + 2000) = true); [|congruence]. apply in_s_iff. change (2 ^ (Z.of_N 32 - 1))%Z with 2147483648%Z. lia.
      + unfold wrap_s. change (2 ^ Z.of_N 32)%Z with 4294967296%Z. change (2 ^ (Z.of_N 32 - 1))%Z with 2147483648%Z.
        replace (y + 2000 + 2147483648)%Z with (y + 2000 - 2147483648 + 1 * 4294967296)%Z by lia.
        rewrite Z_mod_plus_full, Z.mod_small by lia. lia. }
  assert (E2 : forall z, arith_u c 16 (Z.of_N o + 1) = Some z -> z = date_ordinal o).
  { intros z. unfold arith_u, date_ordinal. change (2 ^ 16) with 65536 in *. change (2 ^ Z.of_N 16)%Z with 65536%Z.
    destruct ((0 <=? Z.of_N o + 1) && (Z.of_N o + 1 <? 65536))%Z eqn:E.
    - intros H; injection H as <-. destruct (N.ltb_spec (o + 1) 65536); lia.
    - destruct (overflow_checks c); [discriminate|]. intros H; injection H as <-.
      destruct (N.ltb_spec (o + 1) 65536); [lia|]. assert (Z.of_N o + 1 = 65536)%Z as -> by lia. reflexivity. }
  split.
  - intros [H1 H2]. split; [eauto|]. auto.
  - intros [(a & b & H1 & H2) [-> ->]]. rewrite H1, H2. rewrite <- (E1 _ H1), <- (E2 _ H2). auto.
Qed.

Theorem lang_bde h : lang c (bde c h) (body_accepts c h).
Proof.
  apply (header_ind2 (fun h => lang c (bde c h) (body_accepts c h))); clear h.
  - intros h. destruct h; try exact I; cbn [bde].
    + eapply lang_ext; [apply lang_Ret|]. intros u v _. split; [intros [-> ->]; constructor|intros H; inversion H; auto].
    + eapply lang_ext; [apply lang_pmap, lang_bool|]. intros u v _. split; [intros (b & -> & ->); constructor|intros H; inversion H; eauto].
    + eapply lang_ext; [apply lang_pmap, lang_byte|]. intros u v _. split; [intros (b & -> & ->); constructor|intros H; inversion H; eauto].
    + eapply lang_ext; [apply lang_pmap, lang_u16|]. intros u v _. split; [intros (n & Hn & ->); constructor; exact Hn|intros H; inversion H; eauto].
    + eapply lang_ext; [apply lang_pmap, lang_u32|]. intros u v _. split; [intros (n & Hn & ->); constructor; exact Hn|intros H; inversion H; eauto].
    + eapply lang_ext; [apply lang_pmap, lang_u64|]. intros u v _. split; [intros (n & Hn & ->); constructor; exact Hn|intros H; inversion H; eauto].
    + eapply lang_ext; [apply lang_pmap, lang_i8|]. intros u v _. split; [intros (z & (b & -> & ->) & ->); constructor|intros H; inversion H; eauto].
    + eapply lang_ext; [apply lang_pmap, lang_i16|]. intros u v _. split; [intros (z & (n & Hn & ->) & ->); constructor; exact Hn|intros H; inversion H; eauto].
    + eapply lang_ext; [apply lang_pmap, lang_i32|]. intros u v _. split; [intros (z & (n & Hn & ->) & ->); constructor; exact Hn|intros H; inversion H; eauto].
    + eapply lang_ext; [apply lang_pmap, lang_i64|]. intros u v _. split; [intros (z & (n & Hn & ->) & ->); constructor; exact Hn|intros H; inversion H; eauto].
    + eapply lang_ext; [apply lang_pmap, (lang_float c 4)|]. intros u v _. split.
      * intros (n & [Hn ->] & ->). constructor. unfold lenN in Hn; lia.
      * intros H; inversion H; subst. eexists; split; [|reflexivity]. split; [unfold lenN; lia|reflexivity].
    + eapply lang_ext; [apply lang_pmap, (lang_float c 8)|]. intros u v _. split.
      * intros (n & [Hn ->] & ->). constructor. unfold lenN in Hn; lia.
      * intros H; inversion H; subst. eexists; split; [|reflexivity]. split; [unfold lenN; lia|reflexivity].
    + eapply lang_ext; [apply lang_pmap, lang_big|]. intros u v _. split; [intros (bs & Hb & ->); constructor; exact Hb|intros H; inversion H; eauto].
    + eapply lang_ext; [apply lang_pmap, lang_big|]. intros u v _. split; [intros (bs & Hb & ->); constructor; exact Hb|intros H; inversion H; eauto].
    + eapply lang_ext; [apply lang_pmap, lang_decimal|]. intros u v _. split.
      * intros (p & [(H & ->)|(x & l & n & -> & Hne & Hb & Hn & E)] & ->); [constructor; exact H|].
        rewrite E. constructor; assumption.
      * intros H; inversion H; subst.
        -- exists ([], 0%Z). split; [left; auto|reflexivity].
        -- exists (bs, unzigzag n). split; [right; do 3 eexists; split; [reflexivity|]; cbn [fst snd]; split; [assumption|]; split; [eassumption|]; split; [eassumption|reflexivity]|reflexivity].
    + eapply lang_ext; [apply lang_pmap, lang_string|]. intros u v _. split.
      * intros (bs & [Hb Hv] & ->). constructor; assumption.
      * intros H; inversion H; subst. eexists; split; [|reflexivity]. split; assumption.
    + eapply lang_ext; [apply lang_pmap, lang_byte_buf|]. intros u v _. split; [intros (bs & Hb & ->); constructor; exact Hb|intros H; inversion H; eauto].
    + (* date *)
      eapply lang_ext; [apply lang_pmap, lang_date|]. cbv beta. intros u v Hu. split.
      * intros ([y' o'] & (l & k & y & o & -> & Hl & Hk & E1 & E2) & ->). cbn [fst snd] in *. apply Forall_app in Hu as [Hul Huk].
        assert (Hin : in_s 32 (unzigzag y) = true) by (apply unzigzag_in; [lia|exact (code4_bound _ _ Hul Hl)]).
        destruct (proj1 (date_values _ _ y' o' Hin (code2_bound _ _ Huk Hk)) (conj E1 E2)) as (Hr & -> & ->).
        constructor; assumption.
      * intros H; inversion H; subst. apply Forall_app in Hu as [Hul Huk].
        match goal with Hl : code 4 _ ?y, Hk : code 2 _ ?o, Hr : date_range _ _ _ |- _ =>
          assert (Hin : in_s 32 (unzigzag y) = true) by (apply unzigzag_in; [lia|exact (code4_bound _ _ Hul Hl)]);
          pose proof (proj2 (date_values _ _ _ _ Hin (code2_bound _ _ Huk Hk)) (conj Hr (conj eq_refl eq_refl))) as [E1 E2] end.
        eexists (_, _). split; [|reflexivity]. do 4 eexists. split; [reflexivity|]. split; [eassumption|]. split; [eassumption|]. cbn [fst snd]. auto.
    + eapply lang_ext; [apply lang_pmap, lang_date_time|]. cbv beta. intros u v _. split.
      * intros ([t n] & (l & k & z & -> & Hl & Hk & E) & ->). cbn [fst snd] in *. subst t. constructor; assumption.
      * intros H; inversion H; subst. eexists (unzigzag t, n). split; [|reflexivity]. do 3 eexists. split; [reflexivity|]. split; [eassumption|]. split; [assumption|reflexivity].
  - (* optional *)
    intros h IH. cbn [bde]. eapply lang_ext.
    + apply lang_pmap. unfold de_option. apply lang_bind with (Q := fun b y o => match o with Some v => b = true /\ body_accepts c h y v | None => b = false /\ y = [] end); [apply lang_bool|].
      intros [|] u _ _.
      * eapply lang_ext; [apply lang_pmap, IH|]. cbv beta. intros y [v|] _; split.
        -- intros (a & Ha & E). injection E as ->. auto.
        -- intros [_ H]. eauto.
        -- intros (a & _ & E). discriminate.
        -- intros [E _]. discriminate.
      * eapply lang_ext; [apply lang_Ret|]. cbv beta. intros y [v|] _; intuition congruence.
    + cbv beta. intros u v _. split.
      * intros ([w|] & (x & y & b & -> & -> & H) & ->); destruct H as [-> H]; [constructor; exact H|subst y; constructor].
      * intros H; inversion H; subst.
        -- exists None. split; [|reflexivity]. exists [0], [], false. auto.
        -- eexists (Some _). split; [|reflexivity]. eexists [1], _, true. split; [reflexivity|]. split; [reflexivity|]. eauto.
  - (* array *)
    intros h IH. cbn [bde]. eapply lang_ext.
    + apply lang_bind; [apply lang_u64|]. intros n u Hu Hn. apply lang_Alloc, lang_pmap.
      eapply lang_run; [intros; apply run_repeatN|]. apply (lang_rep (bde c h) _ (N.to_nat n) IH).
    + cbv beta. intros u v Hu. split.
      * intros (x & y & n & -> & Hx & Ha & l & [Hl Hm] & ->). apply Forall_app in Hu as [Hux _].
        rewrite usize_64 in Ha by exact (code8_bound _ _ Hux Hx). apply vec_room_alloc in Ha.
        assert (n = lenN l) as -> by (unfold lenN; lia). constructor; [exact Hx|exact Ha|apply many_bodies, Hm].
      * intros H; inversion H; subst. apply Forall_app in Hu as [Hux _]. exists l, u0, (lenN bs). split; [reflexivity|]. split; [assumption|].
        rewrite usize_64 by (eapply code8_bound; eassumption). split; [apply vec_room_alloc; assumption|].
        exists bs. split; [|reflexivity]. split; [unfold lenN; lia|apply many_bodies; assumption].
  - (* map *)
    intros h IH. cbn [bde].
    eapply lang_run_ok; [intros s Hs; exact (bde_map_eq c h s H64 Hs)|].
    eapply lang_ext; [apply lang_pmap, (lang_map (bde c h) _ IH)|]. cbv beta. intros u v _. split.
    + intros (m & (x & y & es & -> & Hx & Hm & Hi) & ->). apply insert_all_iff in Hi as [Hs Hl].
      econstructor; [exact Hx|apply many_body_entries, Hm|exact Hs|exact Hl].
    + intros H; inversion H; subst. exists m. split; [|reflexivity]. do 3 eexists. split; [reflexivity|]. split; [eassumption|].
      split; [apply many_body_entries; eassumption|]. apply insert_all_iff. auto.
  - (* tuple *)
    intros hs IH. cbn [bde]. eapply lang_ext; [apply lang_Alloc, lang_pmap, lang_bodies, IH|]. cbv beta. intros u v _. split.
    + intros (Ha & l & Hl & ->). constructor; [apply vec_room_alloc, Ha|exact Hl].
    + intros H; inversion H; subst. split; [apply vec_room_alloc; assumption|]. eauto.
  - (* enum *)
    intros hs IH. cbn [bde]. eapply lang_ext.
    + apply lang_bind with (Q := fun i y v => exists h b, pickN hs i = Some h /\ body_accepts c h y b /\ v = BEnum i b); [apply lang_u32|].
      intros i u Hu Hi. rewrite usize_64 by (pose proof (code4_bound _ _ Hu Hi); lia). rewrite pickN_map.
      destruct (pickN hs i) as [h|] eqn:E; cbn [option_map].
      * eapply lang_ext; [apply lang_pmap; exact (proj1 (Forall_forall _ _) IH h (proj1 (pickN_some _ _ _ E)))|]. cbv beta. intros y v _. split.
        -- intros (b & Hb & ->). eauto.
        -- intros (h' & b & E' & Hb & ->). injection E' as <-. eauto.
      * eapply lang_ext; [apply lang_Fail|]. cbv beta. intros y v _. split; [tauto|]. intros (? & ? & ? & _). discriminate.
    + cbv beta. intros u v _. split.
      * intros (x & y & i & -> & Hi & h & b & Hp & Hb & ->). econstructor; eassumption.
      * intros H; inversion H; subst. do 3 eexists. split; [reflexivity|]. split; [eassumption|]. eauto.
Qed.
End Bits64.
