(** * Memory asked for while reading: no less than what is held. *)
From Coq Require Import String.
From Verif Require Import Base BaseFacts Varint VarintFacts Utf8 Serde SerdeFacts SerdeMore SerdeSafe SerdeSize SerdeProps Typing Header HeaderFacts Body BodyFacts Consume PrimFacts SpecDty SpecRequest
  SpecVarint SpecBody SpecHeap HeapFacts Grow SpecGrow GrowFacts.
Local Open Scope list_scope.
Local Open Scope N_scope.

(** A success with result [a] asked for [n] in all. *)
Definition asked {A} (c : cfg) (p : prog A) (R : A -> N -> Prop) : Prop :=
  forall s a r, run c p s = OOk a r -> R a (total (allocs c p s)).

Section Asked.
Variable c : cfg.
Lemma asked_ret {A} (a : A) (R : A -> N -> Prop) : R a 0 -> asked c (Ret a) R.
Proof. intros H s x r E. injection E as <- <-. exact H. Qed.
Lemma asked_fail {A} e (R : A -> N -> Prop) : asked c (Fail e) R.
Proof. intros s a r E. discriminate. Qed.
Lemma asked_crash {A} x (R : A -> N -> Prop) : asked c (Crash x) R.
Proof. intros s a r E. discriminate. Qed.
Lemma asked_exact {A} n e (k : list N -> prog A) R : (forall b, lenN b = n -> asked c (k b) R) -> asked c (ReadExact n e k) R.
Proof.
  intros H s a r E. cbn [run allocs] in *. destruct (N.ltb_spec (lenN s) n); [discriminate|]. eapply H; [rewrite lenN_takeN; lia|exact E].
Qed.
Lemma asked_limit {A} n e (k : list N -> prog A) R : (forall b, asked c (k b) R) -> asked c (ReadLimit n e k) R.
Proof. intros H s a r E. cbn [run allocs] in *. eapply H, E. Qed.
Lemma asked_alloc {A} n (k : prog A) (R : A -> N -> Prop) : asked c k (fun a t => R a (n + t)) -> asked c (Alloc n k) R.
Proof. intros H s a r E. cbn [run allocs] in *. destruct (alloc_result c n); [discriminate|]. cbn [total]. apply (H s a r E). Qed.
Lemma asked_asks {A} l (k : prog A) (R : A -> N -> Prop) : asked c k (fun a t => R a (total l + t)) -> asked c (asks l k) R.
Proof.
  revert R; induction l as [|n l IH]; intros R H; cbn [asks total] in *; [exact H|]. apply asked_alloc, IH. intros s a r E. rewrite N.add_assoc. exact (H s a r E).
Qed.
Lemma asked_weaken {A} (p : prog A) (R Q : A -> N -> Prop) : asked c p R -> (forall a n, R a n -> Q a n) -> asked c p Q.
Proof. intros H HQ s a r E. apply HQ, (H s a r E). Qed.
Lemma asked_any {A} (p : prog A) : asked c p (fun _ _ => True).
Proof. intros s a r _. exact I. Qed.
Lemma asked_bind {A B} (p : prog A) (f : A -> prog B) (R : A -> N -> Prop) (Q : B -> N -> Prop) :
  asked c p R -> (forall a n, R a n -> asked c (f a) (fun b k => Q b (n + k))) -> asked c (bind p f) Q.
Proof.
  intros Hp Hf s b r E. rewrite allocs_bind, total_app. rewrite run_bind in E. destruct (run c p s) as [a r0|e|x] eqn:Ep; try discriminate.
  apply (Hf a _ (Hp s a r0 Ep) r0 b r E).
Qed.
Lemma asked_pmap {A B} (f : A -> B) (p : prog A) (Q : B -> N -> Prop) : asked c p (fun a n => Q (f a) n) -> asked c (pmap f p) Q.
Proof. intros H. eapply asked_bind; [exact H|]. cbv beta. intros a n Ha. apply asked_ret. rewrite N.add_0_r. exact Ha. Qed.
Lemma asked_iter {S} n (f : S -> prog S) s (R : nat -> S -> N -> Prop) :
  R O s 0 -> (forall i s k, R i s k -> asked c (f s) (fun s' t => R (Datatypes.S i) s' (k + t))) -> asked c (iter n f s) (R n).
Proof.
  intros H0 Hs.
  assert (G : forall n i s k, R i s k -> asked c (iter n f s) (fun s' t => R (n + i)%nat s' (k + t))).
  { clear n s H0; induction n as [|n IH]; intros i s k Hi; cbn [iter].
    - apply asked_ret. rewrite N.add_0_r; exact Hi.
    - eapply asked_bind; [apply Hs, Hi|]. cbv beta. intros s' t Ht.
      eapply asked_weaken; [apply IH, Ht|]. cbv beta. intros s2 t2 H2.
      rewrite N.add_assoc. replace (Datatypes.S n + i)%nat with (n + Datatypes.S i)%nat by lia. exact H2. }
  specialize (G n O s 0 H0). rewrite Nat.add_0_r in G. exact G.
Qed.
Lemma asked_foldN {S} n (f : S -> prog S) s (R : nat -> S -> N -> Prop) :
  R O s 0 -> (forall i s k, R i s k -> asked c (f s) (fun s' t => R (Datatypes.S i) s' (k + t))) -> asked c (foldN n f s) (R (N.to_nat n)).
Proof. intros H0 Hs s1 a r E. rewrite allocs_foldN. rewrite run_foldN in E. eapply asked_iter; eassumption. Qed.
Lemma asked_reserve {A} size len cap extra (k : N -> prog A) (R : A -> N -> Prop) :
  (forall cap' n, (size <> 0 -> len + extra <= cap') -> cap' * size <= n + cap * size -> asked c (k cap') (fun a t => R a (n + t))) ->
  asked c (reserve size len cap extra k) R.
Proof.
  intros H. unfold reserve. destruct (N.eqb_spec size 0) as [->|Hz]; [eapply asked_weaken; [apply (H cap 0); lia|auto]|].
  destruct (N.ltb_spec cap (len + extra)) as [L|L].
  - apply asked_alloc, H; [unfold grown; lia|lia].
  - eapply asked_weaken; [apply (H cap 0); lia|auto].
Qed.

Lemma sumN_rev {A} (f : A -> N) l : sumN f (rev l) = sumN f l.
Proof. induction l as [|x l IH]; [reflexivity|]. cbn [rev sumN]. rewrite sumN_app, IH. cbn [sumN]. lia. Qed.
Lemma total_map {A} (f : A -> N) l : total (map f l) = sumN f l.
Proof. induction l as [|x l IH]; [reflexivity|]. cbn [map total sumN]. rewrite IH. reflexivity. Qed.
Lemma asked_push {A} size n cap (p : prog A) (f : A -> N) : asked c p (fun a k => f a <= k) ->
  asked c (g_push size n cap p) (fun l k => lenN l * size + total (map f l) <= k + cap * size).
Proof.
  intros Hp. unfold g_push. eapply asked_bind with (R := fun st k => snd (fst st) = lenN (fst (fst st)) /\ (size <> 0 -> snd (fst st) <= snd st) /\
    sumN f (fst (fst st)) + snd st * size <= k + cap * size).
  - eapply asked_weaken; [apply (asked_foldN n (push_step size p) ([], 0, cap) (fun _ st k => snd (fst st) = lenN (fst (fst st)) /\ (size <> 0 -> snd (fst st) <= snd st) /\
      sumN f (fst (fst st)) + snd st * size <= k + cap * size))|auto].
    + cbn [fst snd sumN]. split; [reflexivity|split; lia].
    + intros _ [[acc len] k0] t (H1 & H2 & H3). cbn [fst snd push_step] in *. eapply asked_bind; [exact Hp|]. cbv beta. intros a t1 Ha.
      apply asked_reserve. intros k1 t2 H4 H5. apply asked_ret. cbn [fst snd sumN]. rewrite lenN_cons. split; [lia|split; [exact H4|lia]].
  - intros [[acc len] k0] t (H1 & H2 & H3). cbn [fst snd] in *. apply asked_ret. rewrite total_map, sumN_rev. unfold lenN in *. rewrite rev_length.
    destruct (N.eqb_spec size 0) as [->|Hz]; [lia|]. specialize (H2 Hz). subst len. assert (N.of_nat (length acc) * size <= k0 * size) by (apply N.mul_le_mono_r; exact H2). lia.
Qed.
Lemma asked_vec {A} size (p : prog A) (f : A -> N) : asked c p (fun a k => f a <= k) ->
  asked c (g_vec c size p) (fun l k => lenN l * size + total (map f l) <= k).
Proof.
  intros Hp. eapply asked_bind; [apply asked_any|]. cbv beta. intros n t _. eapply asked_weaken; [apply asked_push, Hp|]. cbv beta. intros; lia.
Qed.
Lemma asked_string m : holds_text m -> asked c (g_string c m) (fun b k => lenN b <= k).
Proof.
  intros Ht. eapply asked_bind; [apply asked_any|]. cbv beta. intros n t _. destruct (n <? STR_MAX).
  - apply asked_exact. intros b _. apply asked_alloc. destruct (utf8_valid b); [apply asked_ret; lia|apply asked_fail].
  - apply asked_limit. intros b. apply asked_asks. specialize (Ht (lenN b)). destruct (utf8_valid b); [|apply asked_fail].
    destruct (lenN b =? as_usize c n); [apply asked_ret; lia|apply asked_fail].
Qed.
Lemma asked_buf : asked c (g_byte_buf c) (fun b k => lenN b <= k).
Proof.
  eapply asked_bind; [apply asked_any|]. cbv beta. intros n t _. destruct (BUF_MAX <? n).
  - apply asked_alloc. eapply asked_bind with (R := fun st k => match st with inl _ => True | inr b => lenN b <= k end).
    + eapply asked_weaken; [apply (asked_foldN (n / BUF_MAX + 2) (gbuf_step c n) (inl ([], 0, 0, 0)) (fun _ st k => match st with
        | inl (acc, rlen, _, cap) => rlen = sumN lenN acc /\ rlen <= cap /\ cap <= k
        | inr b => lenN b <= k end))|].
      * cbn [sumN]. split; [reflexivity|split; lia].
      * intros _ [[[[acc rlen] pos] cap]|b] k H; cbn [gbuf_step]; [|apply asked_ret; lia]. destruct H as (H1 & H2 & H3).
        destruct (rlen <? as_usize c n); [|apply asked_ret; rewrite lenN_concat, sumN_rev; lia].
        apply asked_exact. intros b Hb. apply asked_reserve. intros cap' t' H4 H5. apply asked_ret. cbn [sumN]. rewrite Hb. assert (1 <> 0) by lia. specialize (H4 H). lia.
      * cbv beta. intros [[[[acc rlen] pos] cap]|b] k H; [exact I|exact H].
    + cbv beta. intros [x|b] k H; [apply asked_crash|]. apply asked_ret. lia.
  - apply asked_alloc, asked_exact. intros b Hb. apply asked_ret. lia.
Qed.
Lemma insert_present {V} k (v : V) l : sorted_keys l = true -> has_key k l = true -> length (map_insert k v l) = length l.
Proof.
  unfold has_key. induction l as [|[k' v'] l IH]; cbn [existsb map_insert fst]; [discriminate|]. intros Hs. apply sorted_cons in Hs as [Hs Hk].
  destruct (bytes_cmp k k') eqn:E; cbn [orb length]; intros H; [reflexivity| |rewrite IH; auto].
  exfalso. apply existsb_exists in H as (kv & Hin & H). rewrite Forall_forall in Hk. specialize (Hk kv Hin).
  rewrite (bytes_cmp_trans k k' (fst kv) E Hk) in H. discriminate.
Qed.
Lemma asked_map_n {A} m size n (p : prog A) (f : A -> N) : holds_text m -> asked c p (fun a k => f a <= k) ->
  asked c (g_map_n c m size n p) (fun l k => map_total m size (length l) + total (map (fun kv => lenN (fst kv) + f (snd kv)) l) <= k).
Proof.
  intros Ht Hp. unfold g_map_n.
  eapply asked_weaken; [apply (asked_foldN n _ [] (fun _ (l : list (list N * A)) k => sorted_keys l = true /\ map_total m size (length l) + total (map (fun kv => lenN (fst kv) + f (snd kv)) l) <= k))|cbv beta; tauto].
  - split; [reflexivity|apply N.le_refl].
  - intros _ l k [Hs H]. eapply asked_bind; [apply asked_string, Ht|]. cbv beta. intros key t1 H1. eapply asked_bind; [exact Hp|]. cbv beta. intros v t2 H2.
    apply asked_asks, asked_ret. split; [apply map_insert_sorted, Hs|]. rewrite total_map in *.
    assert (S := map_insert_sum (fun kv => lenN (fst kv) + f (snd kv)) key v l). cbn [fst snd] in S.
    destruct (has_key key l) eqn:E.
    + rewrite insert_present by assumption. lia.
    + rewrite insert_new by exact E. cbn [map_total]. change (N.of_nat (length l)) with (lenN l). lia.
Qed.
Lemma asked_sequence {A} (ps : list (prog A)) (fs : list (A -> N)) : Forall2 (fun p f => asked c p (fun v k => f v <= k)) ps fs ->
  asked c (sequence ps) (fun l k => all_of fs l <= k).
Proof.
  induction 1 as [|p f ps fs H _ IH]; cbn [sequence]; [apply asked_ret, N.le_refl|].
  eapply asked_bind; [exact H|]. cbv beta. intros a t Ha. eapply asked_bind; [exact IH|]. cbv beta. intros l t' Hl. apply asked_ret. cbn [all_of]. lia.
Qed.
(** Fields read so far. *)
Fixpoint slots_of {A} (fs : list (A -> N)) (l : list (option A)) : N :=
  match fs, l with f :: fs, s :: l => match s with Some v => f v | None => 0 end + slots_of fs l | _, _ => 0 end.
Lemma slots_set {A} fs i (v : A) l f : nth_error fs i = Some f -> nth_error l i = Some None -> slots_of fs (set_slot i v l) = f v + slots_of fs l.
Proof.
  revert i l; induction fs as [|g fs IH]; intros [|i] [|s l] Hf Hl; cbn [nth_error] in *; try discriminate; cbn [set_slot slots_of].
  - injection Hf as ->. injection Hl as ->. lia.
  - rewrite (IH i l Hf Hl). lia.
Qed.
Lemma asked_struct_loop {A} keys (ps : list (string * prog A)) fs : Forall2 (fun p f => asked c (snd p) (fun v k => f v <= k)) ps fs ->
  forall slots, asked c (struct_loop keys ps slots) (fun l k => slots_of fs l <= slots_of fs slots + k).
Proof.
  intros H. induction keys as [|key keys IH]; intros slots; cbn [struct_loop]; [apply asked_ret; lia|].
  destruct (find_field key ps) as [[i p]|] eqn:E; [|apply asked_crash]. apply find_field_in in E as E'.
  destruct (nth_error slots i) as [[x|]|] eqn:En; try apply asked_fail.
  assert (G : exists f, nth_error fs i = Some f /\ asked c p (fun v k => f v <= k)).
  { clear - H E'. revert i E'; induction H as [|q f ps fs H _ IH]; intros [|i] E; cbn [nth_error] in *; try discriminate; [|apply IH, E]. injection E as ->. eauto. }
  destruct G as (f & Hf & Hp). eapply asked_bind; [exact Hp|]. cbv beta. intros a t Ha. eapply asked_weaken; [apply IH|]. cbv beta. intros l k Hl.
  rewrite (slots_set fs i a slots f Hf En) in Hl. lia.
Qed.
Lemma asked_missing {A} (fs : list (A -> N)) (miss : list (option A)) : Forall2 (fun f o => forall v, o = Some v -> f v = 0) fs miss -> forall slots,
  asked c (fill_missing miss slots) (fun l _ => all_of fs l <= slots_of fs slots).
Proof.
  induction 1 as [|f o fs miss H _ IH]; intros [|s slots]; cbn [fill_missing]; try (apply asked_ret; cbn [all_of]; apply N.le_0_l).
  destruct s as [v|]; [|destruct o as [v|]; [|apply asked_fail]].
  - eapply asked_bind; [apply IH|]. cbv beta. intros l _ Hl. apply asked_ret. cbn [all_of slots_of]. lia.
  - eapply asked_bind; [apply IH|]. cbv beta. intros l _ Hl. apply asked_ret. cbn [all_of slots_of]. rewrite (H v eq_refl). lia.
Qed.
End Asked.

Lemma len_combine {A B} (l : list A) (l' : list B) : (length l' <= length l)%nat -> map snd (combine l l') = l'.
Proof. revert l'; induction l as [|x l IH]; intros [|y l'] H; cbn [combine map snd length] in *; try reflexivity; [lia|]. rewrite IH by lia. reflexivity. Qed.
Lemma all_of_cut {A} (fs : list (A -> N)) l (ks : list string) : length ks = length fs -> all_of fs (map snd (combine ks l)) <= all_of fs l.
Proof.
  revert l ks; induction fs as [|f fs IH]; intros l [|k ks] E; [apply N.le_0_l|discriminate E|discriminate E|].
  destruct l as [|v l]; cbn [combine map snd all_of]; [apply N.le_0_l|]. specialize (IH l ks). injection E as E. specialize (IH E). lia.
Qed.
Lemma F2_both {A B C} (f : A -> B) (g : A -> C) (R : B -> C -> Prop) l : Forall (fun x => R (f x) (g x)) l -> Forall2 R (map f l) (map g l).
Proof. induction 1; cbn [map]; constructor; auto. Qed.
Lemma held_unit m d : held m d SUnit = 0.
Proof. destruct d; reflexivity. Qed.

Lemma gde_held c m d : holds_text m -> asked c (gde c m d) (fun v k => held m d v <= k).
Proof.
  intros Ht. induction d using dty_ind2; cbn [gde held]; try (eapply asked_weaken; [apply asked_any|]; cbv beta; intros; apply N.le_0_l).
  - apply asked_pmap, asked_string, Ht.
  - apply asked_pmap, asked_buf.
  - apply asked_pmap. eapply asked_bind; [apply asked_any|]. cbv beta. intros [|] t _; [|apply asked_ret, N.le_0_l].
    apply asked_pmap. eapply asked_weaken; [exact IHd|]. cbv beta. intros; lia.
  - apply asked_pmap, IHd.
  - apply asked_pmap, asked_vec, IHd.
  - apply asked_pmap. cbv beta. apply (asked_sequence c (map (gde c m) ds) (map (held m) ds)), F2_both. assumption.
  - apply asked_pmap. cbv beta. apply (asked_sequence c (map (gde c m) ds) (map (held m) ds)), F2_both. assumption.
  - apply asked_pmap. eapply asked_bind; [apply asked_any|]. cbv beta. intros n t _. eapply asked_weaken; [apply (asked_map_n c m (m_size m d)), IHd; exact Ht|].
    cbv beta. intros l k. rewrite map_length, map_map. cbn [fst snd text_size]. lia.
  - apply asked_pmap. unfold de_struct. rewrite map_map.
    eapply asked_bind; [apply (asked_struct_loop c keys _ (map (fun nf => held m (snd nf)) fs)), F2_both; eapply Forall_impl; [|exact H]; cbn [snd]; auto|].
    cbv beta. intros slots t Hs. eapply asked_weaken; [apply (asked_missing c (map (fun nf => held m (snd nf)) fs)), F2_both, Forall_forall|].
    + intros [k d] _ v. destruct d; cbn [snd missing]; intros E; try discriminate. injection E as <-. reflexivity.
    + cbv beta. intros l k Hl. 
      assert (E0 : slots_of (map (fun nf => held m (snd nf)) fs) (map (fun _ => None) fs) = 0).
      { clear. induction fs as [|x fs IH]; [reflexivity|]. cbn [map slots_of]. rewrite IH. reflexivity. }
      rewrite E0 in Hs. assert (L := all_of_cut (map (fun nf => held m (snd nf)) fs) l (map fst fs)). rewrite !map_length in L. specialize (L eq_refl). lia.
  - eapply asked_bind; [apply asked_any|]. cbv beta. intros i t _. rewrite pickN_map. destruct (pickN vs i) as [[k d]|] eqn:E; cbn [option_map fst snd]; [|apply asked_fail].
    rewrite Forall_forall in H. destruct (pickN_some _ _ _ E) as [Hin _]. specialize (H _ Hin). cbn [snd] in H. apply asked_pmap. eapply asked_weaken; [exact H|].
    cbv beta. intros v n Hv.
    assert (G : forall w, variant_index w = Some i -> held m d (inside w) <= n ->
      match variant_index w with Some i => match pickN (map (fun kd => held m (snd kd)) vs) i with Some f => f (inside w) | None => 0 end | None => 0 end <= t + n).
    { intros w -> Hw. rewrite pickN_map, E. cbn [option_map snd]. lia. }
    destruct k, v; cbn [variant_sval]; apply G; try reflexivity; cbn [inside]; try exact Hv; rewrite held_unit; apply N.le_0_l.
  - apply asked_pmap. eapply asked_weaken; [apply (asked_vec c 1 de_u8 (fun _ => 0)); eapply asked_weaken; [apply asked_any|intros; apply N.le_0_l]|].
    cbv beta. unfold big_sval, vec_u8. intros l k H. cbn [held]. unfold lenN in *. rewrite map_length. lia.
  - apply asked_pmap. eapply asked_weaken; [apply (asked_vec c 1 de_u8 (fun _ => 0)); eapply asked_weaken; [apply asked_any|intros; apply N.le_0_l]|].
    cbv beta. unfold big_sval, vec_u8. intros l k H. cbn [held]. unfold lenN in *. rewrite map_length. lia.
  - apply asked_pmap. eapply asked_bind; [apply (asked_vec c 1 de_u8 (fun _ => 0)); eapply asked_weaken; [apply asked_any|intros; apply N.le_0_l]|].
    cbv beta. intros [|x l] k H; [apply asked_ret, N.le_0_l|]. eapply asked_bind; [apply asked_any|]. intros z t _. apply asked_ret.
    cbn [fst snd big_decimal_sval held vec_u8]. unfold lenN in *. rewrite map_length. lia.
Qed.

Lemma asked_boxed c p (f : body -> N) : asked c p (fun b k => f b <= k) -> asked c (boxed c p) (fun b k => size_of_body c + f b <= k).
Proof. intros H. eapply asked_bind; [exact H|]. cbv beta. intros b k Hb. apply asked_alloc, asked_ret. lia. Qed.
Lemma asked_bodies c ps (f : body -> N) : Forall (fun p => asked c p (fun b k => f b <= k)) ps ->
  asked c (sequence ps) (fun l k => length l = length ps /\ total (map f l) <= k).
Proof.
  induction 1 as [|p ps H _ IH]; cbn [sequence]; [apply asked_ret; split; [reflexivity|apply N.le_0_l]|].
  eapply asked_bind; [exact H|]. cbv beta. intros b k Hb. eapply asked_bind; [exact IH|]. cbv beta. intros l t [Hl Ht]. apply asked_ret.
  cbn [map total length]. split; [congruence|lia].
Qed.
Lemma gbde_held c m h : holds_text m -> asked c (gbde c m h) (fun b k => held_body c m b <= k).
Proof.
  intros Ht. assert (U : forall f : list N -> body, (forall bs, held_body c m (f bs) = lenN bs) -> asked c (pmap f (g_vec c 1 de_u8)) (fun b k => held_body c m b <= k)).
  { intros f Hf. apply asked_pmap. eapply asked_weaken; [apply (asked_vec c 1 de_u8 (fun _ => 0)); eapply asked_weaken; [apply asked_any|intros; apply N.le_0_l]|].
    cbv beta. intros bs k H. rewrite Hf. lia. }
  apply (header_ind2 (fun h => asked c (gbde c m h) (fun b k => held_body c m b <= k))); clear h.
  - intros h; destruct h; try exact I; cbn [gbde bde].
    all: try (apply asked_pmap; eapply asked_weaken; [apply asked_any|]; cbv beta; intros; apply N.le_0_l).
    all: try (apply asked_ret, N.le_0_l).
    + apply U. reflexivity.
    + apply U. reflexivity.
    + apply asked_pmap. eapply asked_bind; [apply (asked_vec c 1 de_u8 (fun _ => 0)); eapply asked_weaken; [apply asked_any|intros; apply N.le_0_l]|].
      cbv beta. intros [|x l] k H; [apply asked_ret, N.le_0_l|]. eapply asked_bind; [apply asked_any|]. intros z t _. apply asked_ret.
      cbn [fst snd held_body]. lia.
    + apply asked_pmap, asked_string, Ht.
    + apply asked_pmap, asked_buf.
  - intros h IH. cbn [gbde]. apply asked_pmap. eapply asked_bind; [apply asked_any|]. cbv beta. intros [|] t _; [|apply asked_ret, N.le_0_l].
    apply asked_pmap. eapply asked_weaken; [apply asked_boxed, IH|]. cbn [held_body]. intros; lia.
  - intros h IH. cbn [gbde]. eapply asked_bind; [apply asked_any|]. cbv beta. intros n t _. apply asked_alloc, asked_pmap.
    eapply asked_weaken; [apply asked_push, IH|]. cbn [held_body]. intros; lia.
  - intros h IH. cbn [gbde]. eapply asked_bind; [apply asked_any|]. cbv beta. intros n t _. apply asked_pmap.
    eapply asked_weaken; [apply asked_map_n, IH; exact Ht|]. cbn [held_body]. intros; lia.
  - intros hs IH. cbn [gbde]. apply asked_alloc, asked_pmap. eapply asked_weaken; [apply asked_bodies, Forall_map; eassumption|].
    cbn [held_body]. intros l k [Hl Hk]. unfold lenN. rewrite Hl, map_length. lia.
  - intros hs IH. cbn [gbde]. eapply asked_bind; [apply asked_any|]. cbv beta. intros i t _. rewrite pickN_map.
    destruct (pickN hs (as_usize c i)) as [h|] eqn:E; cbn [option_map]; [|apply asked_fail]. apply pickN_some in E as [Hin _]. rewrite Forall_forall in IH.
    apply asked_pmap. eapply asked_weaken; [apply asked_boxed, (IH _ Hin)|]. cbn [held_body]. intros; lia.
Qed.
