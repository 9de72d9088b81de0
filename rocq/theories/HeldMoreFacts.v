(** * What values of standard library types and recursive types hold was asked for: proofs. *)
From Coq Require Import String.
From Verif Require Import HeaderFacts.
From Verif Require Import Base BaseFacts Varint VarintFacts Serde SerdeFacts SerdeMore SerdeSafe SerdeSize Typing SpecDty SpecRequest SpecHeap HeapFacts Grow SpecGrow GrowFacts HeldFacts
  Consume Rec RecFacts GrowRec SpecPeak PeakFacts Std SpecStd StdFacts GrowStd SpecPeakStd PeakStdFacts SpecHeld.
Local Open Scope list_scope.
Local Open Scope N_scope.

Lemma asked_zero {A} c (p : prog A) (f : A -> N) : (forall a, f a = 0) -> asked c p (fun a k => f a <= k).
Proof. intros H. eapply asked_weaken; [apply asked_any|]. cbv beta. intros a n _. rewrite H. apply N.le_0_l. Qed.
Lemma asked_after {A B} c (p : prog A) (f : A -> prog B) (g : B -> N) : (forall a, asked c (f a) (fun b k => g b <= k)) -> asked c (bind p f) (fun b k => g b <= k).
Proof. intros H. eapply asked_bind; [apply asked_any|]. cbv beta. intros a t _. eapply asked_weaken; [apply H|]. cbv beta. intros; lia. Qed.
Lemma asked_option {A} c (p : prog A) (f : option A -> N) : f None = 0 -> asked c p (fun v k => f (Some v) <= k) -> asked c (de_option p) (fun o k => f o <= k).
Proof.
  intros H0 H. apply asked_after. intros [|]; [apply asked_pmap, H|apply asked_ret; rewrite H0; apply N.le_refl].
Qed.
(** ** Structs *)
Lemma slots_none {A X} (g : X -> A -> N) (l : list X) : slots_of (map g l) (map (fun _ => None) l) = 0.
Proof. induction l as [|x l IH]; [reflexivity|]. cbn [map slots_of]. rewrite IH. reflexivity. Qed.
Lemma asked_struct {A X} c keys (p : X -> prog A) (g : X -> A -> N) (miss : X -> option A) (fs : list (string * X)) :
  Forall (fun x => asked c (p (snd x)) (fun v k => g (snd x) v <= k)) fs -> (forall x v, miss x = Some v -> g x v = 0) ->
  asked c (de_struct keys (map (fun x => (fst x, p (snd x))) fs) (map (fun x => miss (snd x)) fs)) (fun l k => all_of (map (fun x => g (snd x)) fs) l <= k).
Proof.
  intros H Hm. unfold de_struct. rewrite map_map.
  eapply asked_bind; [apply (asked_struct_loop c keys _ (map (fun x => g (snd x)) fs)), F2_both; eapply Forall_impl; [|exact H]; cbn [snd]; auto|].
  cbv beta. intros slots t Hs. eapply asked_weaken; [apply (asked_missing c (map (fun x => g (snd x)) fs)), F2_both, Forall_forall|].
  - intros x _ v. apply Hm.
  - cbv beta. intros l k Hl. rewrite slots_none in Hs. lia.
Qed.

(** ** Sets *)
Lemma insert_sum cmp f x m : sumN f (set_insert cmp x m) <= f x + sumN f m.
Proof.
  induction m as [|y m IH]; cbn [set_insert sumN]; [lia|]. destruct (cmp x y); cbn [sumN]; lia.
Qed.
Lemma asked_set c ask cmp p f : asked c p (fun a k => f a <= k) -> asked c (g_set c ask cmp p) (fun m k => set_total ask (length m) + total (map f m) <= k).
Proof.
  intros H. eapply asked_bind; [apply asked_any|]. cbv beta. intros n t _.
  eapply asked_weaken; [apply (asked_foldN c (as_usize c n) (set_step ask cmp p) [] (fun _ m k => set_total ask (length m) + total (map f m) <= k))|cbv beta; intros; lia].
  - apply N.le_refl.
  - intros _ m k Hk. unfold set_step. eapply asked_bind; [exact H|]. cbv beta. intros v t1 Hv. apply asked_asks, asked_ret.
    rewrite total_map in *. assert (S := insert_sum cmp f v m). destruct (N.eqb_spec (lenN (set_insert cmp v m)) (lenN m)) as [E|E].
    + apply Nat2N.inj in E. rewrite E. cbn [total]. lia.
    + destruct (insert_grows cmp v m) as [E'|E']; [contradiction|]. assert (L : length (set_insert cmp v m) = Datatypes.S (length m)) by (unfold lenN in E'; lia).
      rewrite L. cbn [set_total]. change (N.of_nat (length m)) with (lenN m). lia.
Qed.
Lemma asked_std_enum c ps (f : stdval -> N) : Forall (fun p => asked c p (fun v k => f v <= k)) ps -> asked c (std_enum ps) (fun v k => f v <= k).
Proof.
  intros H. apply asked_after. intros i. destruct (pickN ps i) as [p|] eqn:E; [|apply asked_fail]. apply pickN_some in E as [Hin _]. rewrite Forall_forall in H. exact (H p Hin).
Qed.
Lemma asked_range c p miss mk f g : asked c p (fun v k => f v <= k) -> (forall v, miss = Some v -> f v = 0) -> (forall a b, g (mk a b) = f a + f b) ->
  asked c (range_de p miss mk) (fun v k => g v <= k).
Proof.
  intros H Hm Hg. unfold range_de. eapply asked_bind.
  - apply (asked_struct c ["start"; "end"]%string (fun _ : unit => p) (fun _ => f) (fun _ => miss) [("start", tt); ("end", tt)]%string).
    + constructor; [exact H|constructor; [exact H|constructor]].
    + intros _. exact Hm.
  - cbn [map fst snd]. cbv beta. intros [|a [|b [|? ?]]] t Ht; try apply asked_fail. apply asked_ret. rewrite Hg. cbn [all_of] in Ht. lia.
Qed.
Lemma std_missing_none l t v : std_missing t = Some v -> std_held l t v = 0.
Proof.
  destruct t; cbn [std_missing]; try discriminate.
  - destruct d; cbn [missing option_map]; try discriminate. intros E; injection E as <-. reflexivity.
  - intros E; injection E as <-. reflexivity.
Qed.
Lemma all_of_repeat {A} (f : A -> N) n l : length l = n -> all_of (repeat f n) l = total (map f l).
Proof. revert l; induction n as [|n IH]; intros [|x l] E; try discriminate; [reflexivity|]. cbn [repeat all_of map total]. rewrite IH by (injection E; auto). reflexivity. Qed.
Lemma asked_rep {A} c (p : prog A) f n : asked c p (fun v k => f v <= k) -> asked c (sequence (repeat p n)) (fun l k => total (map f l) <= k).
Proof.
  intros H. induction n as [|n IH]; cbn [repeat sequence]; [apply asked_ret, N.le_refl|].
  eapply asked_bind; [exact H|]. cbv beta. intros a t Ha. eapply asked_bind; [exact IH|]. cbv beta. intros l t' Hl. apply asked_ret. cbn [map total]. lia.
Qed.

Lemma gstd_held c l t : holds_text (s_mem l) -> asked c (gstd c l t) (fun v k => std_held l t v <= k).
Proof.
  intros Ht.
  induction t as [d|d|t IH|t IH|cmp t IH|n t IH|ts IH|t IH|t IH|t IH|t u IH IHu| | | | | | | | | | | |t IH|fs IH|vs IH] using stdty_ind2;
    cbn [gstd]; try (apply asked_zero; intros a; reflexivity).
  - apply asked_pmap. cbn [std_held]. apply gde_held, Ht.
  - eapply asked_bind; [apply gde_held, Ht|]. cbv beta. intros v t Hv. destruct (is_zero v); [apply asked_fail|apply asked_ret]. cbn [std_held]. lia.
  - apply asked_pmap. apply (asked_option c _ (fun o => std_held l (TOption t) (match o with Some v => XSome v | None => XNone end))); [reflexivity|]. cbn [std_held]. exact IH.
  - apply asked_pmap. cbn [std_held]. apply asked_vec, IH.
  - apply asked_pmap. cbn [std_held]. apply asked_set, IH.
  - apply asked_pmap. cbn [std_held]. apply asked_rep, IH.
  - apply asked_pmap. cbn [std_held]. apply (asked_sequence c (map (gstd c l) ts) (map (std_held l) ts)), F2_both. assumption.
  - apply (asked_range c _ _ _ (std_held l t)); [exact IH|intros v; apply std_missing_none|reflexivity].
  - apply (asked_range c _ _ _ (std_held l t)); [exact IH|intros v; apply std_missing_none|reflexivity].
  - apply asked_std_enum. constructor; [apply asked_ret; apply N.le_0_l|]. constructor; [apply asked_pmap, IH|]. constructor; [apply asked_pmap, IH|constructor].
  - apply asked_std_enum. constructor; [apply asked_pmap, IH|]. constructor; [apply asked_pmap, IHu|constructor].
  - eapply asked_bind; [apply asked_buf|]. cbv beta. intros bs t H. destruct (existsb (N.eqb 0) bs); [apply asked_fail|]. apply asked_asks, asked_ret. cbn [std_held]. lia.
  - apply asked_std_enum. constructor; [|constructor; [apply asked_fail|constructor]]. apply asked_pmap. cbn [std_held].
    eapply asked_weaken; [apply (asked_vec c 1 de_u8 (fun _ => 0)); apply asked_zero; reflexivity|]. cbv beta. intros; lia.
  - apply asked_pmap. cbn [std_held]. apply asked_string, Ht.
  - apply asked_pmap. cbn [std_held]. apply asked_after with (g := fun kvs => map_total (s_mem l) (s_size l t) (length kvs) + total (map (fun kv => lenN (fst kv) + std_held l t (snd kv)) kvs)).
    intros n. apply asked_map_n; assumption.
  - apply asked_pmap. cbn [std_held]. eapply asked_weaken; [apply (asked_struct c (map fst fs) (gstd c l) (std_held l) std_missing fs); [exact IH|intros x v; apply std_missing_none]|].
    cbv beta. intros vs k Hk. assert (L := all_of_cut (map (fun nf => std_held l (snd nf)) fs) vs (map fst fs)). rewrite !map_length in L. specialize (L eq_refl). lia.
  - apply asked_after. intros i. rewrite pickN_map. destruct (pickN vs i) as [v|] eqn:E; cbn [option_map]; [|apply asked_fail]. apply asked_pmap. cbn [std_held].
    rewrite pickN_map, E. cbn [option_map]. apply pickN_some in E as [Hin _]. rewrite Forall_forall in IH. exact (IH v Hin).
Qed.

(** ** Recursive types *)
Lemma asked_box {A} c size (p : prog A) f : asked c p (fun v k => f v <= k) -> asked c (g_box size p) (fun v k => size + f v <= k).
Proof.
  intros H. unfold g_box. destruct (N.eqb_spec size 0) as [->|_]; [eapply asked_weaken; [exact H|cbv beta; intros; lia]|].
  eapply asked_bind; [exact H|]. cbv beta. intros a t Ha. apply asked_alloc, asked_ret. lia.
Qed.
Lemma gx_held c l call f t : holds_text (l_mem l) -> (forall i, asked c (call i) (fun v k => f i v <= k)) ->
  asked c (gxde c l call t) (fun v k => x_held l f t v <= k).
Proof.
  intros Ht Hc. induction t using xty_ind2; cbn [gxde].
  - cbn [x_held]. apply gde_held, Ht.
  - apply asked_pmap. apply (asked_option c _ (fun o => x_held l f (XOption t) (match o with Some v => SSome v | None => SNone end))); [reflexivity|]. cbn [x_held]. exact IHt.
  - apply asked_pmap. cbn [x_held]. exact IHt.
  - apply asked_pmap. cbn [x_held]. apply asked_vec, IHt.
  - apply asked_pmap. cbn [x_held]. eapply asked_bind; [apply asked_any|]. cbv beta. intros n t0 _. eapply asked_weaken; [apply (asked_map_n c (l_mem l) (l_size l t)), IHt; exact Ht|].
    cbv beta. intros kvs k. rewrite map_length, map_map. cbn [fst snd text_size]. lia.
  - apply asked_pmap. cbn [x_held]. apply (asked_sequence c (map (gxde c l call) ts) (map (x_held l f) ts)), F2_both. assumption.
  - apply asked_pmap. cbn [x_held]. apply (asked_sequence c (map (gxde c l call) ts) (map (x_held l f) ts)), F2_both. assumption.
  - apply asked_pmap. cbn [x_held]. eapply asked_weaken; [apply (asked_struct c keys (gxde c l call) (x_held l f) xmissing fs); [exact H|]|].
    + intros x v. destruct x; cbn [xmissing]; try discriminate; [destruct d; cbn [missing]; try discriminate|]; intros E; injection E as <-; reflexivity.
    + cbv beta. intros vs k Hk. assert (L := all_of_cut (map (fun nf => x_held l f (snd nf)) fs) vs (map fst fs)). rewrite !map_length in L. specialize (L eq_refl). lia.
  - eapply asked_bind; [apply asked_any|]. cbv beta. intros i t _. rewrite pickN_map. destruct (pickN vs i) as [[k d]|] eqn:E; cbn [option_map fst snd]; [|apply asked_fail].
    rewrite Forall_forall in H. destruct (pickN_some _ _ _ E) as [Hin _]. specialize (H _ Hin). cbn [snd] in H. apply asked_pmap. eapply asked_weaken; [exact H|].
    cbv beta. intros v n Hv.
    assert (G : forall w, variant_index w = Some i -> (w = SUnitVariant i \/ x_held l f d (inside w) <= n) -> x_held l f (XEnum vs) w <= t + n).
    { intros w Hi [->|Hw]; [apply N.le_0_l|]. destruct w; cbn [variant_index] in Hi; try discriminate Hi; cbn [x_held variant_index]; try apply N.le_0_l;
        injection Hi as ->; rewrite pickN_map, E; cbn [option_map snd]; lia. }
    destruct k, v; cbn [variant_sval]; apply G; try reflexivity; cbn [inside]; first [left; reflexivity|right; exact Hv].
  - cbn [x_held]. apply asked_box, Hc.
Qed.
Lemma gitem_held c l items depth i n : holds_text (l_mem l) -> asked c (gitem c l items depth i) (fun v k => item_held l items n i v <= k).
Proof.
  intros Ht. revert i n. induction depth as [|depth IH]; intros i n; cbn [gitem]; [apply asked_crash|].
  destruct (nth_error items i) as [t|] eqn:E; [|apply asked_crash]. destruct n as [|n]; [apply asked_zero; reflexivity|]. cbn [item_held]. rewrite E.
  apply gx_held; [exact Ht|]. intros j. apply IH.
Qed.
