(** * Changes of a type or header that keep old data readable: C77. *)
From Coq Require Import String.
From Verif Require Import Base Serde Typing ExSerde Header Body SpecBody SpecUpgrade SpecUpgradeBody ExUpgrade SerdeFacts UpgradeFacts UpgradeBodyFacts.
Local Open Scope list_scope.
Local Open Scope N_scope.

(** ** C77 *)
(** After any chain of the changes listed in [upgrade], anywhere in a type, data written before reads
    back as the changed value, and the rest of the input is left alone. *)
Theorem C77_typed : forall c d d' f v rest, wf_cfg c -> 4096 <= heap_limit c -> wf_dty d = true -> wf_dty d' = true ->
  upgrade d d' f -> has_ty c d v = true ->
  has_ty c d' (f v) = true /\ wbytes (ser (f v)) = wbytes (ser v) /\
  run c (de c d') (wbytes (ser v) ++ rest) = OOk (f v) rest.
Proof. exact upgraded_typed. Qed.
(** The same for bodies and headers, whenever the changed body can be held in memory. *)
Theorem C77_body : forall c h h' f b rest, wf_cfg c -> 4096 <= heap_limit c -> hupgrade h h' f ->
  validate h b = true -> body_ok c b = true -> dates_plain b = true -> body_fits c (f b) = true ->
  run c (bde c h') (wbytes (bser c b) ++ rest) = OOk (f b) rest /\ validate h' (f b) = true.
Proof. exact upgraded_body. Qed.
Example C77_ex : exists f, upgrade ex_old ex_new f /\ f ex_v = ex_v' /\
  run c64 (de c64 ex_new) (wbytes (ser ex_v) ++ [9]) = OOk ex_v' [9].
Proof.
  eexists. split; [|split].
  - unfold ex_old, ex_new. eapply up_then; [|apply up_struct|]; [reflexivity|]. cbn [map snd].
    refine (up_then _ (DTuple [DOption DUnit; DString; DTuple [DI32; DI32]; DEnum [(KUnit, DUnit); (KNewtype, DU8); (KNewtype, DString)];
                               DVec (DTuple [DString; DBool])]) _ _ _ eq_refl (up_tuple _ _ _ _) _).
    + refine (up_cons _ _ _ _ _ _ up_bool_option (up_cons _ _ _ _ _ _ up_char_string (up_cons _ _ _ _ _ _ (up_same _)
               (up_cons _ _ _ _ _ _ _ (up_cons _ _ _ _ _ _ (up_map_vec _) up_nil))))).
      exact (up_enum [(KUnit, DUnit); (KTuple, DTuple [DU8])] [(KUnit, DUnit); (KNewtype, DU8)] [(KNewtype, DString)] _
               (up_cons _ _ _ _ _ _ (up_same _) (up_cons _ _ _ _ _ _ (up_single _) up_nil))).
    + eapply up_then; [|apply (up_flatten [DOption DUnit; DString] [DI32; DI32] [_; _])|]; [reflexivity|].
      apply (up_to_struct _ [("state"%string, _); ("name"%string, _); ("x"%string, _); ("y"%string, _); ("sort"%string, _); ("labels"%string, _)]).
  - reflexivity.
  - reflexivity.
Qed.
(** Two changes that are not in the list: an integer made wider, and a variant put in front. *)
Example C77_ex_wider : has_ty c64 DU16 (SU16 50000) = true /\
  run c64 (de c64 DU32) (wbytes (ser (SU16 50000))) = OOk (SU32 1600000) [].
Proof. split; reflexivity. Qed.
Example C77_ex_front :
  run c64 (de c64 (DEnum [(KNewtype, DU8); (KUnit, DUnit)])) (wbytes (ser (SUnitVariant 0)) ++ [7]) = OOk (SNewtypeVariant 0 (SU8 7)) [].
Proof. reflexivity. Qed.
Example C77_ex_body : exists f,
  hupgrade (HTuple [HBoolean; HTuple [HDate; HMap HString]; HEnum [HUnit]])
           (HTuple [HUInt8; HTuple [HInt32; HUInt16]; HArray (HTuple [HString; HBinary]); HEnum [HUnit; HString]]) f /\
  run c64 (bde c64 (HTuple [HUInt8; HTuple [HInt32; HUInt16]; HArray (HTuple [HString; HBinary]); HEnum [HUnit; HString]]))
    (wbytes (bser c64 (BTuple [BBoolean true; BTuple [BDate 2022 42; BMap [([97], BString [104; 105])]]; BEnum 0 BUnit]))) =
    OOk (f (BTuple [BBoolean true; BTuple [BDate 2022 42; BMap [([97], BString [104; 105])]]; BEnum 0 BUnit])) [] /\
  f (BTuple [BBoolean true; BTuple [BDate 2022 42; BMap [([97], BString [104; 105])]]; BEnum 0 BUnit]) =
    BTuple [BUInt8 1; BTuple [BInt32 22; BUInt16 41]; BArray [BTuple [BString [97]; BBinary [104; 105]]]; BEnum 0 BUnit].
Proof.
  eexists. split; [|split].
  - refine (hu_then _ _ _ _ _ (hu_flatten [HBoolean] [HDate; HMap HString] [_]) _).
    refine (hu_tuple _ _ _ (hu_cons _ _ _ _ _ _ hu_bool_u8 (hu_cons _ _ _ _ _ _ hu_date (hu_cons _ _ _ _ _ _ _ (hu_cons _ _ _ _ _ _ _ hu_nil))))).
    + exact (hu_then _ _ _ _ _ (hu_map _ _ _ hu_string_binary) (hu_map_array _)).
    + exact (hu_enum [HUnit] [HUnit] [HString] _ (hu_cons _ _ _ _ _ _ (hu_same _) hu_nil)).
  - reflexivity.
  - reflexivity.
Qed.
Print Assumptions C77_typed.
Print Assumptions C77_body.
