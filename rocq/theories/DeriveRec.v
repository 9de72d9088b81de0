(** * Proofs about items that refer to each other. *)
From Coq Require Import String Relations.
From Verif Require Import Base BaseFacts Varint Header HeaderFacts Derive SpecDerive DeriveFacts.
Local Open Scope list_scope.
Local Open Scope N_scope.

(** ** A header is a sequence of writes and of calls *)
Notation piece := (list N + nat)%type.
Definition piece_w (f : nat -> option wprog) (p : piece) : option wprog :=
  match p with inl bs => Some (wr bs) | inr j => f j end.
Definition pieces_w (f : nat -> option wprog) (o : option (list piece)) : option wprog :=
  match o with Some l => option_map wconcat (all_some (map (piece_w f) l)) | None => None end.

Definition pieces_struct (fs : list (attrs * option (list piece))) : option (list piece) :=
  if existsb (fun f => has_skip_serializing_if (fst f)) fs then None
  else
    let types := map snd (filter (fun f => negb (is_skip_field (fst f))) fs) in
    option_map (fun ls => inl (D_TUPLE_CODE :: enc_u16 (len_u16 types)) :: concat ls) (all_some types).
Definition pieces_variant (fs : list (option (list piece))) : option (list piece) :=
  match fs with
  | [] => Some [inl []; inl [UNIT_CODE]]
  | [f] => option_map (cons (inl [])) f
  | _ => option_map (fun ls => inl (D_TUPLE_CODE :: enc_u16 (len_u16 fs)) :: concat ls) (all_some fs)
  end.
Definition pieces_enum (vs : list (attrs * list (option (list piece)))) : option (list piece) :=
  if existsb (fun v => has_skip_serializing_if (fst v)) vs then None
  else
    let outers := map snd (filter (fun v => negb (is_skip_field (fst v))) vs) in
    option_map (fun ls => inl (D_ENUM_CODE :: enc_u16 (len_u16 outers)) :: concat ls)
      (all_some (map pieces_variant outers)).
Fixpoint pieces (t : rty) : option (list piece) :=
  match t with
  | RLeaf l => Some [inl [leaf_code l]]
  | ROption t => option_map (cons (inl [OPTIONAL_CODE])) (pieces t)
  | RVec t => option_map (cons (inl [ARRAY_CODE])) (pieces t)
  | RBTreeMap t => option_map (cons (inl [MAP_CODE])) (pieces t)
  | RHashMap t => option_map (cons (inl [MAP_CODE])) (pieces t)
  | RTuple ts =>
      if (1 <=? lenN ts) && (lenN ts <=? 16) then
        option_map (fun ls => inl [TUPLE_CODE] :: inl (enc_u16 (lenN ts)) :: concat ls) (all_some (map pieces ts))
      else None
  | RStruct _ fs => pieces_struct (map (fun f => (fst f, pieces (snd (snd f)))) fs)
  | REnum vs => pieces_enum (map (fun v => (fst v, map (fun f => pieces (snd (snd f))) (snd (snd v)))) vs)
  | RUnion => None
  | RItem i => Some [inr i]
  end.

Lemma wseq_assoc a b c : wseq (wseq a b) c = wseq a (wseq b c).
Proof. induction a as [| | |bs a IH]; cbn [wseq]; [reflexivity|reflexivity|reflexivity|]. rewrite IH; reflexivity. Qed.
Lemma wseq_done w : wseq w WDone = w.
Proof. induction w as [| | |bs w IH]; cbn [wseq]; [reflexivity|reflexivity|reflexivity|]. rewrite IH; reflexivity. Qed.
Lemma wconcat_app_eq a b : wconcat (a ++ b) = wseq (wconcat a) (wconcat b).
Proof. induction a as [|x a IH]; [reflexivity|]. cbn [app wconcat fold_right]. change (fold_right wseq WDone) with wconcat. rewrite IH, wseq_assoc. reflexivity. Qed.
Lemma all_some_app {A} (a b : list (option A)) :
  all_some (a ++ b) = match all_some a, all_some b with Some x, Some y => Some (x ++ y) | _, _ => None end.
Proof.
  induction a as [|[x|] a IH]; cbn [app all_some]; [destruct (all_some b); reflexivity| |reflexivity].
  rewrite IH. destruct (all_some a), (all_some b); reflexivity.
Qed.
Lemma pieces_w_cons f bs o : pieces_w f (option_map (cons (inl bs)) o) = option_map (wseq (wr bs)) (pieces_w f o).
Proof. destruct o as [l|]; [|reflexivity]. cbn [option_map pieces_w map piece_w all_some]. destruct (all_some _); reflexivity. Qed.
Lemma pieces_w_list {A} f (F : A -> option wprog) (G : A -> option (list piece)) l :
  Forall (fun a => F a = pieces_w f (G a)) l ->
  option_map wconcat (all_some (map F l)) = pieces_w f (option_map (@concat piece) (all_some (map G l))).
Proof.
  induction 1 as [|a l H _ IH]; [reflexivity|]. cbn [map]. rewrite H.
  destruct (G a) as [p|]; cbn [all_some option_map]; [|reflexivity].
  destruct (all_some (map F l)) as [ws|], (all_some (map G l)) as [ps|]; cbn [option_map] in IH |- *.
  - cbn [pieces_w concat] in IH |- *. rewrite map_app, all_some_app.
    destruct (all_some (map (piece_w f) p)) as [x|]; cbn [all_some option_map]; [|reflexivity].
    destruct (all_some (map (piece_w f) (concat ps))) as [y|]; cbn [option_map] in IH |- *; [|discriminate].
    injection IH as IH. rewrite wconcat_app_eq, <- IH. reflexivity.
  - discriminate IH.
  - cbn [pieces_w concat] in IH |- *. rewrite map_app, all_some_app.
    destruct (all_some (map (piece_w f) (concat ps))); [discriminate|].
    destruct (all_some (map (piece_w f) p)); reflexivity.
  - cbn [pieces_w]. destruct (option_map wconcat (all_some (map (piece_w f) p))); reflexivity.
Qed.
Lemma option_map_comp {A B C} (g : B -> C) (h : A -> B) o : option_map g (option_map h o) = option_map (fun a => g (h a)) o.
Proof. destruct o; reflexivity. Qed.
Lemma seq_list f bs {A} (F : A -> option wprog) (G : A -> option (list piece)) l :
  Forall (fun a => F a = pieces_w f (G a)) l ->
  option_map (fun ws => wseq (wr bs) (wconcat ws)) (all_some (map F l)) =
  pieces_w f (option_map (fun ls => inl bs :: concat ls) (all_some (map G l))).
Proof.
  intros H. rewrite <- (option_map_comp (cons (inl bs)) (@concat piece)), pieces_w_cons, <- (pieces_w_list f F G l H), option_map_comp. reflexivity.
Qed.
Lemma existsb_fst {A B} (p : A -> bool) (F : B -> A * option wprog) (G : B -> A * option (list piece)) l :
  (forall b, fst (F b) = fst (G b)) -> existsb (fun f => p (fst f)) (map F l) = existsb (fun f => p (fst f)) (map G l).
Proof. intros H. induction l as [|b l IH]; [reflexivity|]. cbn [map existsb]. rewrite H, IH; reflexivity. Qed.
Lemma filter_map {A B} (p : B -> bool) (F : A -> B) l : filter p (map F l) = map F (filter (fun a => p (F a)) l).
Proof. induction l as [|a l IH]; [reflexivity|]. cbn [map filter]. destruct (p (F a)); rewrite IH; reflexivity. Qed.
Lemma Forall_filter {A} (P : A -> Prop) p l : Forall P l -> Forall P (filter p l).
Proof. rewrite !Forall_forall. intros H x Hx. apply filter_In in Hx. apply H, Hx. Qed.
Lemma len_u16_map {A B C} (F : A -> B) (G : A -> C) l : len_u16 (map F l) = len_u16 (map G l).
Proof. unfold len_u16, lenN. rewrite !map_length. reflexivity. Qed.

Lemma variant_pieces f {A} (F : A -> option wprog) (G : A -> option (list piece)) l : Forall (fun a => F a = pieces_w f (G a)) l ->
  derive_variant (map F l) = pieces_w f (pieces_variant (map G l)).
Proof.
  intros H. destruct l as [|a [|b l]].
  - reflexivity.
  - cbn [map derive_variant pieces_variant]. inversion H as [|? ? H1 _]; subst. rewrite H1, pieces_w_cons. reflexivity.
  - unfold derive_variant, pieces_variant. cbn [map]. change (F a :: F b :: map F l) with (map F (a :: b :: l)).
    change (G a :: G b :: map G l) with (map G (a :: b :: l)). rewrite (len_u16_map F G). apply seq_list, H.
Qed.
Lemma ser_header_pieces f t : ser_header_in f t = pieces_w f (pieces t).
Proof.
  apply (rty_ind2 (fun t => ser_header_in f t = pieces_w f (pieces t))); clear t.
  - reflexivity.
  - intros t IH. cbn [ser_header_in pieces]. rewrite pieces_w_cons, IH. reflexivity.
  - intros t IH. cbn [ser_header_in pieces]. rewrite pieces_w_cons, IH. reflexivity.
  - intros t IH. cbn [ser_header_in pieces]. rewrite pieces_w_cons, IH. reflexivity.
  - intros t IH. cbn [ser_header_in pieces]. rewrite pieces_w_cons, IH. reflexivity.
  - intros ts IH. cbn [ser_header_in pieces]. destruct (_ && _); [|reflexivity].
    rewrite <- (option_map_comp (cons (inl [TUPLE_CODE])) (fun ls => inl (enc_u16 (lenN ts)) :: concat ls)), pieces_w_cons.
    rewrite <- (seq_list f (enc_u16 (lenN ts)) (ser_header_in f) pieces ts IH), option_map_comp. reflexivity.
  - intros k fs IH. cbn [ser_header_in pieces]. unfold derive_struct, pieces_struct.
    rewrite (existsb_fst has_skip_serializing_if _ (fun f0 => (fst f0, pieces (snd (snd f0))))) by reflexivity.
    destruct (existsb _ _); [reflexivity|]. cbv zeta. rewrite !filter_map. cbn [fst]. rewrite !map_map. cbn [snd].
    rewrite (len_u16_map (fun x => ser_header_in f (snd (snd x))) (fun x => pieces (snd (snd x)))).
    apply seq_list. apply Forall_filter. exact IH.
  - intros vs IH. cbn [ser_header_in pieces]. unfold derive_enum, pieces_enum.
    assert (E : existsb (fun v => has_skip_serializing_if (fst v)) (map (fun v => (fst v, map (fun f0 => ser_header_in f (snd (snd f0))) (snd (snd v)))) vs) =
                existsb (fun v => has_skip_serializing_if (fst v)) (map (fun v => (fst v, map (fun f => pieces (snd (snd f))) (snd (snd v)))) vs)).
    { clear. induction vs as [|v vs IH]; [reflexivity|]. cbn [map existsb fst]. rewrite IH. reflexivity. }
    revert E. destruct (existsb _ _); intros <-; [reflexivity|]. cbv zeta. rewrite !filter_map. cbn [fst]. rewrite !map_map. cbn [snd].
    rewrite (len_u16_map (fun x => map (fun f0 => ser_header_in f (snd (snd f0))) (snd (snd x))) (fun x => map (fun f0 => pieces (snd (snd f0))) (snd (snd x)))).
    apply seq_list. apply Forall_filter. eapply Forall_impl; [|exact IH]. cbv beta. intros v Hv. apply variant_pieces, Hv.
  - reflexivity.
  - intros i. cbn [ser_header_in pieces pieces_w map piece_w all_some]. destruct (f i) as [w|]; [|reflexivity].
    cbn [option_map all_some wconcat fold_right]. rewrite wseq_done. reflexivity.
Qed.

Lemma subst_pieces g f t : (forall j, f j = ser_header (g j)) -> ser_header (subst_items g t) = ser_header_in f t.
Proof.
  intros Hf. unfold ser_header in *. apply (rty_ind2 (fun t => ser_header_in (fun _ => None) (subst_items g t) = ser_header_in f t)); clear t; cbn [subst_items ser_header_in].
  - reflexivity.
  - intros t IH. rewrite IH. reflexivity.
  - intros t IH. rewrite IH. reflexivity.
  - intros t IH. rewrite IH. reflexivity.
  - intros t IH. rewrite IH. reflexivity.
  - intros ts IH. unfold lenN. rewrite map_length, map_map.
    replace (map (fun x => ser_header_in (fun _ => None) (subst_items g x)) ts) with (map (ser_header_in f) ts); [reflexivity|].
    symmetry. apply map_ext_in. rewrite Forall_forall in IH. exact IH.
  - intros k fs IH. rewrite map_map. cbn [fst snd]. f_equal. apply map_ext_in. rewrite Forall_forall in IH.
    intros x Hx. rewrite (IH x Hx). reflexivity.
  - intros vs IH. rewrite map_map. cbn [fst snd]. f_equal. apply map_ext_in. rewrite Forall_forall in IH.
    intros x Hx. f_equal. rewrite map_map. cbn [fst snd]. apply map_ext_in. specialize (IH x Hx). rewrite Forall_forall in IH. exact IH.
  - reflexivity.
  - intros i. symmetry. apply Hf.
Qed.

(** ** Which items a type calls *)
Lemma all_some_in {A} (l : list (option A)) r : all_some l = Some r -> forall a, In a r <-> In (Some a) l.
Proof.
  revert r. induction l as [|o l IH]; intros r H a.
  - injection H as <-. split; intros [].
  - apply all_some_cons in H as (x & t & -> & H & ->). cbn [In]. rewrite (IH t H). split; intros [E|E]; auto; [subst; auto|injection E as ->; auto].
Qed.
Lemma concat_pieces {A} (G : A -> option (list piece)) (l : list A) ls j : all_some (map G l) = Some ls ->
  (In (inr j) (concat ls) <-> exists a p, In a l /\ G a = Some p /\ In (inr j) p).
Proof.
  intros H. rewrite in_concat. split.
  - intros (p & Hp & Hj). apply (proj1 (all_some_in _ _ H p)) in Hp. apply in_map_iff in Hp as (a & Ha & Hin). eauto.
  - intros (a & p & Ha & Hp & Hj). exists p. split; [|exact Hj]. apply (all_some_in _ _ H). apply in_map_iff. eauto.
Qed.
Lemma in_cons_inl bs l j : In (@inr (list N) nat j) (inl bs :: l) <-> In (inr j) l.
Proof. cbn [In]. split; [intros [E|E]; [discriminate|exact E]|auto]. Qed.
Lemma variant_calls (fs : list (attrs * (string * rty))) p j :
  Forall (fun f => forall l j, pieces (snd (snd f)) = Some l -> (calls (snd (snd f)) j <-> In (inr j) l)) fs ->
  pieces_variant (map (fun f => pieces (snd (snd f))) fs) = Some p ->
  (In (inr j) p <-> exists f, In f fs /\ calls (snd (snd f)) j).
Proof.
  intros IH H. rewrite Forall_forall in IH. destruct fs as [|f [|f' fs]].
  - injection H as <-. split; [intros [E|[E|[]]]; discriminate|intros (f & [] & _)].
  - cbn [map pieces_variant] in H. apply option_map_some in H as (l & Hl & ->). rewrite in_cons_inl.
    rewrite <- (IH f (or_introl eq_refl) l j Hl). split; [intros Hc; exists f; split; [left; reflexivity|exact Hc]|intros (f0 & [->|[]] & Hc); exact Hc].
  - unfold pieces_variant in H. cbn [map] in H. change (pieces (snd (snd f)) :: pieces (snd (snd f')) :: map (fun f => pieces (snd (snd f))) fs) with
      (map (fun f => pieces (snd (snd f))) (f :: f' :: fs)) in H. revert H IH. generalize (f :: f' :: fs) as l0. intros l0 H IH.
    apply option_map_some in H as (ls & Hls & ->). rewrite in_cons_inl, (concat_pieces _ _ _ j Hls). split.
    + intros (a & q & Ha & Hq & Hj). exists a. split; [exact Ha|]. apply (IH a Ha q j Hq), Hj.
    + intros (a & Ha & Hc). destruct (pieces (snd (snd a))) as [q|] eqn:E.
      * exists a, q. split; [exact Ha|]. split; [exact E|]. apply (IH a Ha q j E), Hc.
      * exfalso. assert (Hn : In None (map (fun f => pieces (snd (snd f))) l0)) by (apply in_map_iff; eauto).
        clear - Hls Hn. revert ls Hls. induction (map (fun f => pieces (snd (snd f))) l0) as [|o l IHl]; [destruct Hn|].
        intros ls H. apply all_some_cons in H as (x & t & -> & H & ->). destruct Hn as [E|Hn]; [discriminate|eauto].
Qed.
Lemma all_some_none {A} (l : list (option A)) ls : all_some l = Some ls -> ~ In None l.
Proof.
  revert ls. induction l as [|o l IHl]; intros ls H Hn; [destruct Hn|].
  apply all_some_cons in H as (x & t & -> & H & ->). destruct Hn as [E|Hn]; [discriminate|exact (IHl t H Hn)].
Qed.
Lemma calls_pieces t : forall l j, pieces t = Some l -> (calls t j <-> In (inr j) l).
Proof.
  apply (rty_ind2 (fun t => forall l j, pieces t = Some l -> (calls t j <-> In (inr j) l))); clear t; cbn [pieces].
  - intros x l j H. injection H as <-. split; [intros Hc; inversion Hc|intros [E|[]]; discriminate].
  - intros t IH l j H. apply option_map_some in H as (l' & H & ->). rewrite in_cons_inl, <- (IH l' j H).
    split; [intros Hc; inversion Hc; assumption|constructor; assumption].
  - intros t IH l j H. apply option_map_some in H as (l' & H & ->). rewrite in_cons_inl, <- (IH l' j H).
    split; [intros Hc; inversion Hc; assumption|constructor; assumption].
  - intros t IH l j H. apply option_map_some in H as (l' & H & ->). rewrite in_cons_inl, <- (IH l' j H).
    split; [intros Hc; inversion Hc; assumption|constructor; assumption].
  - intros t IH l j H. apply option_map_some in H as (l' & H & ->). rewrite in_cons_inl, <- (IH l' j H).
    split; [intros Hc; inversion Hc; assumption|constructor; assumption].
  - intros ts IH l j H. destruct (_ && _); [|discriminate]. apply option_map_some in H as (ls & H & ->). rewrite Forall_forall in IH.
    rewrite !in_cons_inl, (concat_pieces _ _ _ j H). split.
    + intros Hc. inversion Hc as [| | | | |? t ? Hin Hc'| |]; subst. destruct (pieces t) as [p|] eqn:E.
      * exists t, p. split; [exact Hin|]. split; [exact E|]. apply (IH t Hin p j E), Hc'.
      * exfalso. apply (all_some_none _ _ H). apply in_map_iff; eauto.
    + intros (t & p & Hin & E & Hj). apply (cl_tuple ts t j Hin). apply (IH t Hin p j E), Hj.
  - intros k fs IH l j H. unfold pieces_struct in H. destruct (existsb _ _); [discriminate|]. cbv zeta in H. rewrite filter_map in H. cbn [fst] in H. rewrite map_map in H. cbn [snd] in H.
    apply option_map_some in H as (ls & H & ->). rewrite Forall_forall in IH.
    rewrite in_cons_inl, (concat_pieces _ _ _ j H). split.
    + intros Hc. inversion Hc as [| | | | | |? ? a n t ? Hin Hsk Hc'|]; subst.
      assert (Hf : In (a, (n, t)) (filter (fun f => negb (is_skip_field (fst f))) fs)).
      { apply filter_In. split; [exact Hin|]. cbn [fst]. rewrite (proj2 (skip_false a) Hsk). reflexivity. }
      destruct (pieces t) as [p|] eqn:E.
      * exists (a, (n, t)), p. split; [exact Hf|]. split; [exact E|]. apply (IH _ Hin p j E), Hc'.
      * exfalso. apply (all_some_none _ _ H). apply in_map_iff. exists (a, (n, t)); auto.
    + intros ([a [n t]] & p & Hin & E & Hj). apply filter_In in Hin as [Hin Hs]. cbn [fst snd] in Hs, E.
      apply (cl_struct k fs a n t j Hin); [apply skip_false; destruct (is_skip_field a); [discriminate|reflexivity]|].
      apply (IH _ Hin p j E), Hj.
  - intros vs IH l j H. unfold pieces_enum in H. destruct (existsb _ _); [discriminate|]. cbv zeta in H. rewrite filter_map in H. cbn [fst] in H. rewrite !map_map in H. cbn [snd] in H.
    apply option_map_some in H as (ls & H & ->). rewrite Forall_forall in IH.
    rewrite in_cons_inl, (concat_pieces _ _ _ j H). split.
    + intros Hc. inversion Hc as [| | | | | | |? a k fs b n t ? Hin Hsk Hin' Hc']; subst.
      assert (Hf : In (a, (k, fs)) (filter (fun f => negb (is_skip_field (fst f))) vs)).
      { apply filter_In. split; [exact Hin|]. cbn [fst]. rewrite (proj2 (skip_false a) Hsk). reflexivity. }
      destruct (pieces_variant (map (fun f => pieces (snd (snd f))) fs)) as [p|] eqn:E.
      * exists (a, (k, fs)), p. split; [exact Hf|]. split; [exact E|].
        apply (variant_calls fs p j (IH _ Hin) E). exists (b, (n, t)). auto.
      * exfalso. apply (all_some_none _ _ H). apply in_map_iff. exists (a, (k, fs)); auto.
    + intros ([a [k fs]] & p & Hin & E & Hj). apply filter_In in Hin as [Hin Hs]. cbn [fst snd] in Hs, E.
      apply (variant_calls fs p j (IH _ Hin) E) in Hj as ([b [n t]] & Hin' & Hc). cbn [snd] in Hc.
      apply (cl_enum vs a k fs b n t j Hin); [apply skip_false; destruct (is_skip_field a); [discriminate|reflexivity]|exact Hin'|exact Hc].
  - discriminate.
  - intros i l j H. injection H as <-. split; [intros Hc; inversion Hc; left; reflexivity|intros [E|[]]; injection E as <-; constructor].
Qed.

(** ** Consequences for one type *)
Lemma pieces_of f t w : ser_header_in f t = Some w -> exists l ws, pieces t = Some l /\ all_some (map (piece_w f) l) = Some ws /\ w = wconcat ws.
Proof.
  rewrite ser_header_pieces. destruct (pieces t) as [l|]; [|discriminate]. cbn [pieces_w]. intros H.
  apply option_map_some in H as (ws & H & ->). eauto.
Qed.
Lemma header_exists f g t w : ser_header_in f t = Some w -> (forall j, calls t j -> f j <> None -> g j <> None) ->
  exists w', ser_header_in g t = Some w'.
Proof.
  intros H Hg. destruct (pieces_of f t w H) as (l & ws & Hl & Hws & ->). rewrite ser_header_pieces, Hl. cbn [pieces_w].
  assert (Hc : forall j, In (inr j) l -> f j <> None -> g j <> None) by (intros j Hj; apply Hg; apply (calls_pieces t l j Hl), Hj).
  clear - Hws Hc. revert ws Hws. induction l as [|p l IH]; intros ws Hws; [eexists; reflexivity|].
  cbn [map] in Hws |- *. apply all_some_cons in Hws as (x & t & H1 & H2 & ->).
  destruct (IH (fun j Hj => Hc j (or_intror Hj)) t H2) as [w' IH']. apply option_map_some in IH' as (ws' & E & ->).
  destruct p as [bs|j]; cbn [piece_w all_some] in *; [rewrite E; eexists; reflexivity|].
  destruct (g j) as [y|] eqn:Eg; [rewrite E; eexists; reflexivity|]. exfalso.
  apply (Hc j (or_introl eq_refl)); [rewrite H1; discriminate|exact Eg].
Qed.
Lemma header_calls f t w j : ser_header_in f t = Some w -> calls t j -> exists w', f j = Some w' /\ (wresult w = WeOk -> wresult w' = WeOk).
Proof.
  intros H Hc. destruct (pieces_of f t w H) as (l & ws & Hl & Hws & ->). apply (calls_pieces t l j Hl) in Hc. clear - Hws Hc.
  revert ws Hws. induction l as [|p l IH]; [destruct Hc|]. intros ws Hws. cbn [map] in Hws. apply all_some_cons in Hws as (x & t & H1 & H2 & ->).
  change (wconcat (x :: t)) with (wseq x (wconcat t)). rewrite wresult_wseq. destruct Hc as [->|Hc].
  - exists x. split; [exact H1|]. destruct (wresult x); [reflexivity|discriminate|discriminate].
  - destruct (IH Hc t H2) as (w' & E & Hw). exists w'. split; [exact E|]. destruct (wresult x); [exact Hw|discriminate|discriminate].
Qed.
Lemma header_result f t w : ser_header_in f t = Some w ->
  wresult w = WeOk \/ exists j w', calls t j /\ f j = Some w' /\ wresult w' <> WeOk /\ wresult w = wresult w'.
Proof.
  intros H. destruct (pieces_of f t w H) as (l & ws & Hl & Hws & ->).
  assert (Hc : forall j, In (inr j) l -> calls t j) by (intros j; apply (calls_pieces t l j Hl)). clear - Hws Hc.
  revert ws Hws. induction l as [|p l IH]; intros ws Hws; [injection Hws as <-; left; reflexivity|].
  cbn [map] in Hws. apply all_some_cons in Hws as (x & r & H1 & H2 & ->).
  change (wconcat (x :: r)) with (wseq x (wconcat r)). rewrite wresult_wseq. destruct p as [bs|j]; cbn [piece_w] in H1.
  - injection H1 as <-. cbn [wr wresult]. apply (IH (fun j Hj => Hc j (or_intror Hj)) r H2).
  - destruct (wresult x) eqn:E.
    + apply (IH (fun j Hj => Hc j (or_intror Hj)) r H2).
    + right. exists j, x. split; [apply Hc; left; reflexivity|]. split; [exact H1|]. rewrite E. split; [discriminate|reflexivity].
    + right. exists j, x. split; [apply Hc; left; reflexivity|]. split; [exact H1|]. rewrite E. split; [discriminate|reflexivity].
Qed.
Lemma header_ext f g t : (forall j, calls t j -> f j = g j) -> ser_header_in f t = ser_header_in g t.
Proof.
  intros H. rewrite !ser_header_pieces. destruct (pieces t) as [l|] eqn:E; [|reflexivity]. cbn [pieces_w]. f_equal. f_equal.
  apply map_ext_in. intros [bs|j] Hj; [reflexivity|]. cbn [piece_w]. apply H. apply (calls_pieces t l j E), Hj.
Qed.

(** ** Programs *)
Lemma compiled_calls items i t j : compiled items -> nth_error items i = Some t -> calls t j -> (j < length items)%nat.
Proof.
  intros Hc Hi Hj. unfold compiled in Hc. rewrite Forall_forall in Hc. destruct (Hc t (nth_error_In _ _ Hi)) as [w Hw].
  destruct (header_calls _ _ _ _ Hw Hj) as (w' & E & _). destruct (Nat.ltb_spec j (length items)) as [G|G]; [exact G|discriminate].
Qed.
Lemma item_compiles items depth i : compiled items -> (i < length items)%nat -> exists w, item_header items depth i = Some w.
Proof.
  intros Hc. revert i. induction depth as [|d IH]; intros i Hi; cbn [item_header]; [eauto|].
  destruct (nth_error items i) as [t|] eqn:E; [|apply nth_error_None in E; lia].
  pose proof Hc as Hc'. unfold compiled in Hc'. rewrite Forall_forall in Hc'. destruct (Hc' t (nth_error_In _ _ E)) as [w Hw].
  apply (header_exists _ (item_header items d) t w Hw). intros j Hj _. destruct (IH j (compiled_calls items i t j Hc E Hj)) as [w' ->]. discriminate.
Qed.
Lemma item_stack items depth i w : item_header items depth i = Some w -> wresult w = WeOk \/ wresult w = WePanic PStack.
Proof.
  revert i w. induction depth as [|d IH]; intros i w H; cbn [item_header] in H; [injection H as <-; right; reflexivity|].
  destruct (nth_error items i) as [t|]; [|discriminate]. destruct (header_result _ _ _ H) as [E|(j & w' & _ & Hj & _ & ->)]; [auto|].
  apply (IH j w' Hj).
Qed.
Lemma item_ok_uses items depth i j w : item_header items depth i = Some w -> wresult w = WeOk -> uses items i j ->
  exists d w', depth = S d /\ item_header items d j = Some w' /\ wresult w' = WeOk.
Proof.
  intros H Hw (t & Ht & Hc). destruct depth as [|d]; cbn [item_header] in H; [injection H as <-; discriminate|].
  rewrite Ht in H. destruct (header_calls _ _ _ _ H Hc) as (w' & E & G). exists d, w'. auto.
Qed.
Lemma item_ok_trans items i j : clos_trans nat (uses items) i j -> forall depth w, item_header items depth i = Some w -> wresult w = WeOk ->
  exists d w', (d < depth)%nat /\ item_header items d j = Some w' /\ wresult w' = WeOk.
Proof.
  induction 1 as [i j H|i j k _ IH1 _ IH2]; intros depth w Hw Hr.
  - destruct (item_ok_uses _ _ _ _ _ Hw Hr H) as (d & w' & -> & E & G). exists d, w'. auto.
  - destruct (IH1 _ _ Hw Hr) as (d & w1 & Hd & H1 & H2). destruct (IH2 _ _ H1 H2) as (d' & w2 & Hd' & H3 & H4). exists d', w2.
    split; [lia|auto].
Qed.
Lemma recursive_never_ok items i depth w : recursive items i -> item_header items depth i = Some w -> wresult w <> WeOk.
Proof.
  intros Hr. revert w. induction depth as [depth IH] using lt_wf_ind. intros w Hw Hok.
  destruct (item_ok_trans _ _ _ Hr _ _ Hw Hok) as (d & w' & Hd & H1 & H2). exact (IH d Hd w' H1 H2).
Qed.
Lemma recursion_overflows items i j : compiled items -> (i < length items)%nat -> clos_refl_trans nat (uses items) i j -> recursive items j ->
  forall depth, exists w, item_header items depth i = Some w /\ wresult w = WePanic PStack.
Proof.
  intros Hc Hi Hij Hj depth. destruct (item_compiles items depth i Hc Hi) as [w Hw]. exists w. split; [exact Hw|].
  destruct (item_stack _ _ _ _ Hw) as [Hok|H]; [exfalso|exact H].
  assert (E : i = j \/ clos_trans nat (uses items) i j).
  { clear - Hij. induction Hij as [i j H|i|i j k _ IH1 _ IH2]; [right; apply t_step, H|auto|].
    destruct IH1 as [->|IH1]; [exact IH2|]. destruct IH2 as [<-|IH2]; [auto|]. right. eapply t_trans; eassumption. }
  destruct E as [->|E]; [exact (recursive_never_ok _ _ _ _ Hj Hw Hok)|].
  destruct (item_ok_trans _ _ _ E _ _ Hw Hok) as (d & w' & _ & H1 & H2). exact (recursive_never_ok _ _ _ _ Hj H1 H2).
Qed.

(** A chain of calls, each from the one before. *)
Fixpoint chain (items : list rty) (i : nat) (l : list nat) : Prop :=
  match l with [] => True | j :: l' => uses items i j /\ chain items j l' end.
Lemma stack_chain items depth i w : item_header items depth i = Some w -> wresult w <> WeOk ->
  exists l, length l = depth /\ chain items i l.
Proof.
  revert i w. induction depth as [|d IH]; intros i w H Hn; [exists []; split; [reflexivity|exact I]|].
  cbn [item_header] in H. destruct (nth_error items i) as [t|] eqn:E; [|discriminate].
  destruct (header_result _ _ _ H) as [G|(j & w' & Hc & Hj & Hn' & _)]; [contradiction|].
  destruct (IH j w' Hj Hn') as (l & Hl & Hch). exists (j :: l). split; [cbn [length]; lia|]. split; [exists t; auto|exact Hch].
Qed.
Lemma chain_reach items l : forall i k, chain items i l -> In k l -> clos_trans nat (uses items) i k.
Proof.
  induction l as [|j l IH]; intros i k Hc Hk; [destruct Hk|]. destruct Hc as [Hu Hc]. destruct Hk as [->|Hk]; [apply t_step, Hu|].
  eapply t_trans; [apply t_step, Hu|]. apply IH; assumption.
Qed.
Lemma chain_cycle items l : forall i, chain items i l -> ~ NoDup l -> exists k, clos_trans nat (uses items) i k /\ recursive items k.
Proof.
  induction l as [|j l IH]; intros i Hc Hn; [exfalso; apply Hn; constructor|]. destruct Hc as [Hu Hc].
  destruct (in_dec Nat.eq_dec j l) as [Hin|Hin].
  - exists j. split; [apply t_step, Hu|]. apply (chain_reach items l j j Hc Hin).
  - destruct (IH j Hc) as (k & Hk & Hr); [intros HN; apply Hn; constructor; assumption|].
    exists k. split; [|exact Hr]. eapply t_trans; [apply t_step, Hu|exact Hk].
Qed.
Lemma chain_bound items i l : compiled items -> chain items i l -> Forall (fun j => (j < length items)%nat) l.
Proof.
  intros Hc. revert i. induction l as [|j l IH]; intros i Hch; constructor; destruct Hch as [(t & Ht & Hj) Hch]; [|eapply IH, Hch].
  eapply compiled_calls; eassumption.
Qed.
Lemma acyclic_ok items i : compiled items -> (i < length items)%nat ->
  (forall j, clos_refl_trans nat (uses items) i j -> ~ recursive items j) ->
  exists w, item_header items (S (length items)) i = Some w /\ wresult w = WeOk.
Proof.
  intros Hc Hi Hac. destruct (item_compiles items (S (length items)) i Hc Hi) as [w Hw]. exists w. split; [exact Hw|].
  destruct (item_stack _ _ _ _ Hw) as [H|H]; [exact H|exfalso].
  destruct (stack_chain _ _ _ _ Hw) as (l & Hl & Hch); [rewrite H; discriminate|].
  destruct (ListDec.NoDup_dec Nat.eq_dec l) as [HN|HN].
  - assert (Hincl : incl l (seq 0 (length items))).
    { intros j Hj. apply in_seq. pose proof (chain_bound _ _ _ Hc Hch) as HF. rewrite Forall_forall in HF. specialize (HF j Hj). lia. }
    apply NoDup_incl_length in Hincl; [|exact HN]. rewrite seq_length in Hincl. lia.
  - destruct (chain_cycle _ _ _ Hch HN) as (k & Hk & Hr). apply (Hac k); [|exact Hr].
    clear - Hk. induction Hk as [i k H|i j k _ IH1 _ IH2]; [apply rt_step, H|eapply rt_trans; eassumption].
Qed.
(** A header that is written is that of the type with all names resolved. *)
Lemma item_unroll items depth i w : item_header items depth i = Some w -> wresult w = WeOk -> ser_header (unroll items depth i) = Some w.
Proof.
  revert i w. induction depth as [|d IH]; intros i w H Hok; cbn [item_header unroll] in *; [injection H as <-; discriminate|].
  destruct (nth_error items i) as [t|] eqn:E; [|discriminate]. rewrite (nth_error_nth items i RUnion E).
  rewrite (subst_pieces (unroll items d) (fun j => ser_header (unroll items d j)) t) by reflexivity.
  rewrite <- H. apply header_ext. intros j Hj. destruct (header_calls _ _ _ _ H Hj) as (w' & Hw' & Hr).
  rewrite Hw'. apply (IH j w' Hw' (Hr Hok)).
Qed.
