(** * Fields with a second name: proofs. *)
From Coq Require Import String Permutation.
From Verif Require Import Base BaseFacts Serde SerdeFacts Typing RecFacts SpecReads ReadsFacts SerdeSize SpecAlias Alias DerivedFacts.
Local Open Scope list_scope.
Local Open Scope N_scope.

Lemma answers_iff key f : existsb (String.eqb key) (af_name f :: af_aliases f) = true <-> In key (names_of f).
Proof.
  rewrite existsb_exists. split.
  - intros (x & Hin & E). apply String.eqb_eq in E as ->. exact Hin.
  - intros Hin. exists key. split; [exact Hin|apply String.eqb_refl].
Qed.
Lemma find_alias_app key fs1 f fs2 : Forall (fun g => ~ In key (names_of g)) fs1 -> In key (names_of f) ->
  find_alias key (fs1 ++ f :: fs2) = Some (length fs1, f).
Proof.
  intros H Hf. induction H as [|g fs1 Hg _ IH]; cbn [app find_alias length].
  - apply answers_iff in Hf as ->. reflexivity.
  - destruct (existsb _ _) eqn:E; [apply answers_iff in E; contradiction|]. rewrite IH. reflexivity.
Qed.

(** The first field whose names include the key: an unrelated field has none of them. *)
Lemma apart fs1 f fs2 key : NoDup (flat_map names_of (fs1 ++ f :: fs2)) -> In key (names_of f) -> Forall (fun g => ~ In key (names_of g)) fs1.
Proof.
  intros Hnd Hk. rewrite flat_map_app in Hnd. cbn [flat_map] in Hnd. rewrite Forall_forall. intros g Hg Hkg.
  assert (Hin : In key (flat_map names_of fs1)) by (apply in_flat_map; exists g; auto).
  revert Hnd Hin. generalize (flat_map names_of fs1). intros l. induction l as [|x l IH]; intros Hnd Hin; [contradiction|].
  cbn [app] in Hnd. apply NoDup_cons_iff in Hnd as [Hx Hnd]. destruct Hin as [->|Hin]; [|exact (IH Hnd Hin)]. apply Hx. rewrite !in_app_iff. auto.
Qed.

Lemma add_name_in k l x : In x (add_name k l) <-> x = k \/ In x l.
Proof.
  induction l as [|y l IH]; cbn [add_name In]; [intuition congruence|].
  destruct (String.eqb_spec k y) as [->|Hn]; [cbn [In]; intuition congruence|].
  destruct (String.ltb k y); cbn [In]; [intuition congruence|]. rewrite IH. intuition congruence.
Qed.
Lemma sorted_in ns x : In x (fold_right add_name [] ns) <-> In x ns.
Proof. induction ns as [|k ns IH]; cbn [fold_right In]; [tauto|]. rewrite add_name_in, IH. intuition congruence. Qed.
Lemma announced_in all f x : In x (announced all f) -> In x (names_of f).
Proof. unfold announced, names_of. destruct all; [apply sorted_in|intros [<-|[]]; left; reflexivity]. Qed.

(** At most one name: the field's own. *)
Lemma alone f : (forall a, In a (af_aliases f) -> a = af_name f) -> announced true f = [af_name f].
Proof.
  intros H. unfold announced. cbn [fold_right].
  assert (E : fold_right add_name [] (af_aliases f) = [] \/ fold_right add_name [] (af_aliases f) = [af_name f]).
  { induction (af_aliases f) as [|k ns IH]; cbn [fold_right]; [auto|]. right.
    rewrite (H k (or_introl eq_refl)). destruct IH as [->| ->]; [intros a Ha; apply H; right; exact Ha|reflexivity|].
    cbn [add_name]. rewrite String.eqb_refl. reflexivity. }
  destruct E as [->| ->]; cbn [add_name]; [reflexivity|]. rewrite String.eqb_refl. reflexivity.
Qed.
Lemma several f a : In a (af_aliases f) -> a <> af_name f -> exists k1 k2 t, announced true f = k1 :: k2 :: t.
Proof.
  intros Ha Hn. unfold announced. set (ns := af_name f :: af_aliases f).
  assert (H1 : In (af_name f) (fold_right add_name [] ns)) by (apply sorted_in; left; reflexivity).
  assert (H2 : In a (fold_right add_name [] ns)) by (apply sorted_in; right; exact Ha).
  destruct (fold_right add_name [] ns) as [|k1 [|k2 t]]; [contradiction| |eauto].
  destruct H1 as [H1|[]], H2 as [H2|[]]. congruence.
Qed.

(** A stretch of fields that announce one name each. *)
Lemma loop_ones c all fs keys : NoDup (flat_map names_of fs) -> forall fs2 fs1 fs3 l1 s,
  fs = fs1 ++ fs2 ++ fs3 -> length fs1 = length l1 -> Forall (fun f => announced all f = [af_name f]) fs2 ->
  run c (alias_loop c (flat_map (announced all) fs2 ++ keys) fs (map Some l1 ++ map (fun _ => None) (fs2 ++ fs3))) s
  = obind (run c (sequence (map (fun f => de c (af_ty f)) fs2)) s)
      (fun l2 r => run c (alias_loop c keys fs (map Some (l1 ++ l2) ++ map (fun _ => None) fs3)) r).
Proof.
  intros Hnd. induction fs2 as [|f fs2 IH]; intros fs1 fs3 l1 s E El HF.
  - cbn [flat_map map sequence run obind app]. rewrite app_nil_r. reflexivity.
  - inversion HF as [|? ? Hf HF']; subst. cbn [flat_map map sequence]. rewrite Hf. cbn [app alias_loop].
    assert (Ef : find_alias (af_name f) (fs1 ++ (f :: fs2) ++ fs3) = Some (length fs1, f)).
    { apply find_alias_app; [|left; reflexivity]. apply (apart fs1 f (fs2 ++ fs3)); [exact Hnd|left; reflexivity]. }
    cbn [app] in Ef |- *. rewrite Ef. cbn [map].
    assert (El1 : length (map (@Some sval) l1) = length fs1) by (rewrite map_length; congruence).
    rewrite <- El1, nth_error_mid, !run_bind. destruct (run c (de c (af_ty f)) s) as [a r|e|q]; cbn [obind]; [|reflexivity..].
    rewrite set_slot_app, run_bind.
    specialize (IH (fs1 ++ [f]) fs3 (l1 ++ [a]) r). rewrite map_app in IH. cbn [map] in IH. rewrite <- !app_assoc in IH. cbn [app] in IH.
    rewrite IH; [|reflexivity|rewrite !app_length; cbn [length]; lia|exact HF'].
    destruct (run c (sequence (map (fun f => de c (af_ty f)) fs2)) r) as [l2 r2|e|q]; cbn [obind run]; [|reflexivity..].
    rewrite <- !app_assoc. reflexivity.
Qed.

Lemma run_sequence_app {A} c (ps qs : list (prog A)) : forall s,
  run c (sequence (ps ++ qs)) s = obind (run c (sequence ps) s) (fun l r => obind (run c (sequence qs) r) (fun m r' => OOk (l ++ m) r')).
Proof.
  induction ps as [|p ps IH]; intros s; cbn [app sequence run obind].
  - symmetry. apply obind_ret.
  - rewrite !run_bind, obind_obind. apply obind_ext; intros a r. rewrite !run_bind, IH, !obind_obind. apply obind_ext; intros l r'.
    cbn [run obind]. rewrite obind_obind. reflexivity.
Qed.
Lemma fill_all c miss : forall (l : list sval) s, length miss = length l -> run c (fill_missing miss (map Some l)) s = OOk l s.
Proof.
  induction miss as [|m miss IH]; intros [|a l] s E; try discriminate; cbn [map fill_missing]; [reflexivity|].
  rewrite run_bind, IH by (cbn [length] in E; congruence). reflexivity.
Qed.
Lemma alias_ones c all fs s : NoDup (flat_map names_of fs) -> Forall (fun f => announced all f = [af_name f]) fs ->
  run c (alias_de c all fs) s
  = obind (run c (sequence (map (fun f => de c (af_ty f)) fs)) s) (fun l r => OOk (SStruct (combine (map af_name fs) l)) r).
Proof.
  intros Hnd HF. unfold alias_de. rewrite run_bind.
  pose proof (loop_ones c all fs [] Hnd fs [] [] [] s) as L. rewrite !app_nil_r in L. cbn [app map length] in L. rewrite L by (auto using app_nil_r).
  rewrite obind_obind. 
  destruct (run c (sequence _) s) as [l r|e|q] eqn:E; cbn [obind alias_loop run]; [|reflexivity..].
  rewrite app_nil_r, run_bind, fill_all; [reflexivity|]. apply run_sequence_length in E. rewrite !map_length in *. congruence.
Qed.
Lemma plain_struct c fs s : NoDup (map af_name fs) ->
  run c (de c (without_aliases fs)) s
  = obind (run c (sequence (map (fun f => de c (af_ty f)) fs)) s) (fun l r => OOk (SStruct (combine (map af_name fs) l)) r).
Proof.
  intros Hnd. unfold without_aliases. cbn [de]. rewrite run_pmap. unfold de_struct. rewrite run_bind, !map_map. cbn [fst snd].
  pose proof (run_struct_loop c (map (fun f => (af_name f, de c (af_ty f))) fs)) as L. rewrite !map_map in L. cbn [fst snd] in L.
  change (map (fun x => af_name x) fs) with (map af_name fs) in L. rewrite (L Hnd s). destruct (run c (sequence _) s) as [l r|e|q] eqn:E; cbn [omap obind]; [|reflexivity..].
  rewrite fill_all; [reflexivity|]. apply run_sequence_length in E. rewrite !map_length in *. congruence.
Qed.
Lemma names_nodup fs : NoDup (flat_map names_of fs) -> NoDup (map af_name fs).
Proof.
  induction fs as [|f fs IH]; cbn [flat_map map]; [constructor|]. unfold names_of at 1. cbn [app]. intros H. apply NoDup_cons_iff in H as [Hf H].
  constructor.
  - intros Hin. apply Hf, in_or_app. right. apply in_map_iff in Hin as (g & E & Hg). apply in_flat_map. exists g. split; [exact Hg|left; exact E].
  - apply IH. clear -H. induction (af_aliases f) as [|a l IH]; [exact H|]. cbn [app] in H. apply NoDup_cons_iff in H as [_ H]. exact (IH H).
Qed.
Lemma own_name_only fs : Forall (fun f => announced false f = [af_name f]) fs.
Proof. apply Forall_forall. reflexivity. Qed.

Lemma alias_names_only c fs s : NoDup (flat_map names_of fs) -> run c (alias_de c false fs) s = run c (de c (without_aliases fs)) s.
Proof. intros Hnd. rewrite alias_ones, plain_struct; auto using names_nodup, own_name_only. Qed.
Lemma alias_unused c fs s : NoDup (map af_name fs) -> Forall (fun f => af_aliases f = []) fs ->
  run c (alias_de c true fs) s = run c (de c (without_aliases fs)) s.
Proof.
  intros Hnd HF. rewrite alias_ones, plain_struct; auto.
  - clear -Hnd HF. replace (flat_map names_of fs) with (map af_name fs); [exact Hnd|]. clear Hnd.
    induction HF as [|f fs Hf _ IH]; [reflexivity|]. cbn [map flat_map]. unfold names_of at 1. rewrite Hf, IH. reflexivity.
  - eapply Forall_impl; [|exact HF]. intros f Hf. apply alone. rewrite Hf. contradiction.
Qed.
Lemma alias_twice c fs1 f fs2 s a : NoDup (flat_map names_of (fs1 ++ f :: fs2)) -> Forall (fun g => af_aliases g = []) fs1 -> In a (af_aliases f) ->
  run c (alias_de c true (fs1 ++ f :: fs2)) s = then_refused (run c (de c (DTuple (map af_ty (fs1 ++ [f])))) s).
Proof.
  intros Hnd HF Ha. set (fs := fs1 ++ f :: fs2) in *.
  assert (Hn : a <> af_name f).
  { intros ->. unfold fs in Hnd. rewrite flat_map_app in Hnd. cbn [flat_map] in Hnd. unfold names_of at 2 in Hnd. cbn [app] in Hnd.
    apply NoDup_remove_2 in Hnd. apply Hnd. rewrite !in_app_iff. auto. }
  destruct (several f a Ha Hn) as (k1 & k2 & t & Ek).
  assert (H1 : In k1 (names_of f)) by (apply (announced_in true); rewrite Ek; left; reflexivity).
  assert (H2 : In k2 (names_of f)) by (apply (announced_in true); rewrite Ek; right; left; reflexivity).
  assert (F1 : find_alias k1 fs = Some (length fs1, f)) by (apply find_alias_app; [exact (apart fs1 f fs2 k1 Hnd H1)|exact H1]).
  assert (F2 : find_alias k2 fs = Some (length fs1, f)) by (apply find_alias_app; [exact (apart fs1 f fs2 k2 Hnd H2)|exact H2]).
  unfold alias_de. rewrite run_bind. unfold fs at 1. rewrite flat_map_app. cbn [flat_map]. rewrite Ek. cbn [app].
  pose proof (loop_ones c true fs (k1 :: k2 :: t ++ flat_map (announced true) fs2) Hnd fs1 [] (f :: fs2) [] s) as L. cbn [app map length] in L. fold fs in L.
  rewrite L; [|reflexivity|reflexivity|eapply Forall_impl; [|exact HF]; intros g Hg; apply alone; rewrite Hg; contradiction].
  cbn [de]. rewrite run_pmap, map_map, map_app. cbn [map]. rewrite run_sequence_app.
  destruct (run c (sequence (map (fun f => de c (af_ty f)) fs1)) s) as [l r|e|q] eqn:E; cbn [obind then_refused]; [|reflexivity..].
  apply run_sequence_length in E. rewrite map_length in E.
  assert (El : length (map (@Some sval) l) = length fs1) by (rewrite map_length; congruence).
  cbn [alias_loop]. rewrite F1, <- El, nth_error_mid, !run_bind. cbn [sequence]. rewrite run_bind.
  destruct (run c (de c (af_ty f)) r) as [b r'|e|q]; cbn [obind run bind then_refused]; [|reflexivity..].
  rewrite set_slot_app. cbn [alias_loop]. rewrite F2, <- El, nth_error_mid. reflexivity.
Qed.

Lemma first_aliased fs : (exists f, In f fs /\ af_aliases f <> []) ->
  exists fs1 f fs2 a, fs = fs1 ++ f :: fs2 /\ Forall (fun g => af_aliases g = []) fs1 /\ In a (af_aliases f).
Proof.
  induction fs as [|g fs IH]; intros (f & Hin & Hf); [contradiction|]. destruct (af_aliases g) as [|a l] eqn:E.
  - destruct Hin as [->|Hin]; [contradiction|]. destruct IH as (fs1 & f1 & fs2 & a & -> & H & Ha); [eauto|].
    exists (g :: fs1), f1, fs2, a. auto.
  - exists [], g, fs, a. rewrite E. split; [reflexivity|]. split; [constructor|left; reflexivity].
Qed.
Lemma alias_never c fs s v r : NoDup (flat_map names_of fs) -> (exists f, In f fs /\ af_aliases f <> []) -> run c (alias_de c true fs) s <> OOk v r.
Proof.
  intros Hnd Hex. destruct (first_aliased fs Hex) as (fs1 & f & fs2 & a & -> & H & Ha).
  rewrite (alias_twice c fs1 f fs2 s a Hnd H Ha). destruct (run c _ s); discriminate.
Qed.
Lemma alias_lost c fs v rest : wf_cfg c -> 4096 <= heap_limit c -> wf_dty (without_aliases fs) = true -> has_ty c (without_aliases fs) v = true ->
  NoDup (flat_map names_of fs) -> (exists f, In f fs /\ af_aliases f <> []) ->
  wresult (ser v) = WeOk /\ run c (alias_de c true fs) (wbytes (ser v) ++ rest) = OErr EMsg.
Proof.
  intros Hc Hh Hd Hv Hnd Hex. destruct (roundtrip c _ v Hc Hh Hd Hv) as [Hw P]. split; [exact Hw|].
  pose proof (proj1 P rest) as R. rewrite plain_struct in R by (apply names_nodup; exact Hnd).
  destruct (first_aliased fs Hex) as (fs1 & f & fs2 & a & E & H & Ha). subst fs.
  rewrite (alias_twice c fs1 f fs2 _ a Hnd H Ha). cbn [de]. rewrite run_pmap, map_map.
  replace (fs1 ++ f :: fs2) with ((fs1 ++ [f]) ++ fs2) in R by (rewrite <- app_assoc; reflexivity).
  rewrite map_app, run_sequence_app in R.
  destruct (run c (sequence (map (fun f => de c (af_ty f)) (fs1 ++ [f]))) (wbytes (ser v) ++ rest)) as [l r|e|q]; cbn [obind] in R; [reflexivity|discriminate..].
Qed.
