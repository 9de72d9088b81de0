(** * Recursive types and interchangeable writers: C55, C56. *)
From Coq Require Import String Relations.
From Verif Require Import Base BaseFacts Serde SerdeFacts Typing Header SpecHeader HeaderFacts Body SpecBody Derive SpecDerive ExSerde DeriveFacts DeriveBody DeriveRec SerdeProps.
Local Open Scope list_scope.
Local Open Scope N_scope.

(** ** C55 *)
(** The header of an item that is recursive, or that uses one that is, is never written: every
    stack overflows. *)
Theorem C55_recursion_overflows : forall items i j,
  compiled items -> (i < length items)%nat -> clos_refl_trans nat (uses items) i j -> recursive items j ->
  forall depth, exists w, item_header items depth i = Some w /\ wresult w = WePanic PStack.
Proof. exact recursion_overflows. Qed.
(** All other headers are written, with no more nested calls than the program has items, and are
    those of the types with all names resolved. *)
Theorem C55_otherwise_written : forall items i,
  compiled items -> (i < length items)%nat ->
  (forall j, clos_refl_trans nat (uses items) i j -> ~ recursive items j) ->
  exists w h, item_header items (S (length items)) i = Some w /\ wresult w = WeOk /\
    describes (unroll items (S (length items)) i) h /\ wbytes w = wbytes (hser h).
Proof.
  intros items i Hc Hi Ha. destruct (acyclic_ok items i Hc Hi Ha) as (w & Hw & Hr).
  pose proof (item_unroll _ _ _ _ Hw Hr) as Hu. destruct (proj1 (ser_header_compiles _) (ex_intro _ w Hu)) as [h Hh].
  exists w, h. split; [exact Hw|]. split; [exact Hr|]. split; [exact Hh|]. apply (ser_header_spec _ w h Hu Hh).
Qed.
(** struct Tree { name: String, children: Vec<Tree> }, struct Forest { root: Tree },
    struct Point { x: u8, pair: (Unit2, i16) } and enum Unit2 { A, #[serde(skip)] B(Tree) }. *)
Example C55_ex :
  let items := [RStruct Named [([], ("name"%string, RLeaf LString)); ([], ("children"%string, RVec (RItem 0)))];
                RStruct Named [([], ("root"%string, RItem 0))];
                RStruct Named [([], ("x"%string, RLeaf LU8)); ([], ("pair"%string, RTuple [RItem 3; RLeaf LI16]))];
                REnum [([], (UnitLike, [])); ([Attr (Some "serde"%string) (Some [NMeta (Some "skip"%string)])], (Unnamed, [([], (""%string, RItem 0))]))]] in
  compiled items /\ recursive items 0 /\ clos_refl_trans nat (uses items) 1%nat 0%nat /\
  (forall j, clos_refl_trans nat (uses items) 2%nat j -> ~ recursive items j) /\
  option_map wbytes (item_header items 5 2) = Some [21; 2; 3; 21; 2; 24; 1; 0; 9].
Proof.
  cbv zeta. split; [repeat (constructor; [eexists; vm_compute; reflexivity|]); constructor|].
  split. { apply t_step. eexists. split; [reflexivity|]. apply (cl_struct _ _ [] "children"%string (RVec (RItem 0))); [right; left; reflexivity|apply not_skipped_nil|repeat constructor]. }
  split. { apply rt_step. eexists. split; [reflexivity|]. apply (cl_struct _ _ [] "root"%string (RItem 0)); [left; reflexivity|apply not_skipped_nil|constructor]. }
  split; [|vm_compute; reflexivity].
  match goal with |- context [uses ?items] => set (I := items) end.
  assert (U3 : forall j, ~ uses I 3 j).
  { intros j (t & Ht & Hc). injection Ht as <-. inversion Hc as [| | | | | | |? a k fs b n t ? Hin Hsk Hin' Hc']; subst.
    destruct Hin as [E|[E|[]]]; injection E as <- <- <-; [destruct Hin'|]. apply Hsk, skip_iff. reflexivity. }
  assert (U2 : forall j, uses I 2 j -> j = 3%nat).
  { intros j (t & Ht & Hc). injection Ht as <-. inversion Hc as [| | | | | |? ? a n t ? Hin Hsk Hc'|]; subst.
    destruct Hin as [E|[E|[]]]; injection E as <- <- <-; inversion Hc' as [| | | | |? ? ? Hin2 Hc2| |]; subst.
    destruct Hin2 as [<-|[<-|[]]]; inversion Hc2; reflexivity. }
  assert (R : forall j, clos_refl_trans nat (uses I) 2%nat j -> j = 2%nat \/ j = 3%nat).
  { intros j H. apply clos_rt_rtn1 in H. induction H as [|j k Hs _ IH]; [auto|]. destruct IH as [->| ->]; [right; apply U2, Hs|destruct (U3 _ Hs)]. }
  intros j Hj Hr. apply clos_trans_t1n in Hr. destruct (R j Hj) as [->| ->].
  - inversion Hr as [j H|j k H H']; subst; apply U2 in H; [discriminate|]. subst. inversion H' as [? G|? ? G]; subst; destruct (U3 _ G).
  - inversion Hr as [j0 H|j0 k H H']; subst; destruct (U3 _ H).
Qed.
Print Assumptions C55_recursion_overflows.
Print Assumptions C55_otherwise_written.

(** ** C56 *)
(** A value whose maps are visited in key order makes, write by write, the calls that the Body with
    the same data makes: also when the writer fails or serialization panics. *)
Theorem C56_same_writes : forall c omit t v h b sv,
  aligned t -> describes t h -> carries c t v b -> in_order v = true -> rser c omit t v = Some sv ->
  ser sv = bser c b.
Proof. intros c omit t v h b sv Ha Hd Hca Ho Hs. exact (same_all c omit t Ha v sv h b Hd Hca Hs Ho). Qed.
(** So typed code reads what dynamic code wrote. [d]: the calls of the Deserialize impl. *)
Theorem C56_typed_reads_dynamic : forall c omit t v h b sv d rest,
  wf_cfg c -> 4096 <= heap_limit c ->
  aligned t -> describes t h -> carries c t v b -> in_order v = true -> rser c omit t v = Some sv ->
  wf_dty d = true -> has_ty c d sv = true ->
  wresult (bser c b) = WeOk /\ run c (de c d) (wbytes (bser c b) ++ rest) = OOk sv rest.
Proof.
  intros c omit t v h b sv d rest Hc Hh Ha Hd Hca Ho Hs Hw Ht.
  rewrite <- (same_all c omit t Ha v sv h b Hd Hca Hs Ho). apply rt_run; assumption.
Qed.
Example C56_ex :
  let t := RStruct Named [([], ("id"%string, RLeaf LU32)); ([], ("tags"%string, RBTreeMap (ROption (RLeaf LI8))));
             ([], ("kind"%string, REnum [([], (UnitLike, [])); ([], (Unnamed, [([], (""%string, RLeaf LBool))]))]))] in
  let v := VSeq [VU 300; VMap [([97], VSome (VI (-1))); ([98], VNone)]; VVariant 1 [VBool true]] in
  let b := BTuple [BUInt32 300; BMap [([97], BOptional (Some (BInt8 (-1)))); ([98], BOptional None)]; BEnum 1 (BBoolean true)] in
  let d := DStruct ["id"; "tags"; "kind"]%string [("id"%string, DU32); ("tags"%string, DMap (DOption DI8)); ("kind"%string, DEnum [(KUnit, DUnit); (KNewtype, DBool)])] in
  aligned t /\ describes t (HTuple [HUInt32; HMap (HOptional HInt8); HEnum [HUnit; HBoolean]]) /\ carries c64 t v b /\ in_order v = true /\
  wf_dty d = true /\
  exists sv, rser c64 (fun _ _ => false) t v = Some sv /\ has_ty c64 d sv = true /\
    wbytes (bser c64 b) = [172; 4; 2; 1; 97; 1; 255; 1; 98; 0; 1; 1] /\ run c64 (de c64 d) (wbytes (bser c64 b)) = OOk sv [].
Proof.
  cbv zeta. split.
  - apply al_struct. constructor; [right; constructor|]. constructor; [right; repeat constructor|]. constructor; [|constructor]. right. cbn [snd].
    apply (al_enum [([], (UnitLike, [])); ([], (Unnamed, [([], (""%string, RLeaf LBool))]))] []); [|constructor].
    repeat (constructor; cbn [fst snd]); try apply not_skipped_nil; try apply not_skipped_if_nil.
  - split; [apply describes_iff; reflexivity|]. split.
    + apply ca_struct. apply caf_keep; [apply not_skipped_nil|repeat constructor|]. apply caf_keep; [apply not_skipped_nil| |].
      * apply ca_btree. apply (cam _ _ _ [BOptional (Some (BInt8 (-1))); BOptional None]); [|repeat constructor|apply Permutation.Permutation_refl|reflexivity].
        cbn [map fst]. constructor; [intros [E|[]]; discriminate|]. constructor; [intros []|constructor].
      * apply caf_keep; [apply not_skipped_nil| |constructor].
        eapply (ca_enum _ _ 1 [] _ _ _ [BBoolean true]); [reflexivity|apply not_skipped_nil|]. repeat constructor.
    + split; [reflexivity|]. split; [reflexivity|]. eexists. split; [vm_compute; reflexivity|].
      split; [vm_compute; reflexivity|]. split; vm_compute; reflexivity.
Qed.
Print Assumptions C56_same_writes.
Print Assumptions C56_typed_reads_dynamic.
