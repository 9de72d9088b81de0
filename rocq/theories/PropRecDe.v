(** * Decoding recursive types: C62. *)
From Coq Require Import String.
From Verif Require Import Base BaseFacts Serde Typing SpecDty ExSerde Rec SpecRec RecFacts SerdeSafe.
Local Open Scope list_scope.
Local Open Scope N_scope.

(** ** C62 *)
(** A value in which items nest at most n deep reads back with room for n nested impls or more. *)
Theorem C62_roundtrip : forall c items n m i v rest, wf_cfg c -> 4096 <= heap_limit c -> wf_items items ->
  fits c items n i v -> (n <= m)%nat ->
  wresult (ser v) = WeOk /\ run c (item_de c items m i) (wbytes (ser v) ++ rest) = OOk v rest.
Proof.
  intros c items n m i v rest Hw Hh Hi Hv Hm. split; [exact (proj1 (item_roundtrip c items Hw Hh Hi n i v rest Hv))|].
  exact (item_more c items Hw Hh Hi n m i v rest Hv Hm).
Qed.
Theorem C62_truncated : forall c items n m i v u x t, wf_cfg c -> 4096 <= heap_limit c -> wf_items items -> usize_bits c = 64 ->
  fits c items n i v -> (n <= m)%nat -> wbytes (ser v) = u ++ x :: t -> run c (item_de c items m i) u = OErr ERead.
Proof. intros c items n m i v u x t Hw Hh Hi Hc. exact (item_truncated c items Hw Hh Hi n m i v u x t Hc). Qed.
(** With less room the stack overflows: nothing limits the depth. *)
Theorem C62_overflow : forall c items n m i v rest, wf_cfg c -> 4096 <= heap_limit c -> wf_items items ->
  usize_bits c = 64 \/ lenN (wbytes (ser v)) < 2 ^ usize_bits c ->
  bytes_ok rest -> fits c items m i v -> ~ fits c items n i v ->
  run c (item_de c items n i) (wbytes (ser v) ++ rest) = OPanic PStack.
Proof. intros c items n m i v rest Hw Hh Hi Hc. exact (item_exact c items Hw Hh Hi n m i v rest Hc). Qed.
(** n bytes suffice to exhaust a stack for n calls. *)
Theorem C62_no_limit_refuted : exists items i, wf_items items /\
  forall c n rest, run c (item_de c items n i) (repeat 1 n ++ rest) = OPanic PStack.
Proof.
  exists node, 0%nat. split; [|exact node_overflow]. apply Forall_cons; [|constructor].
  split; [reflexivity|]. split; [reflexivity|]. intros j Hj.
  inversion Hj as [| | | | | | |? ? ? Hin Hm|]; subst. destruct Hin as [<-|[]]. cbn [snd] in Hm.
  inversion Hm as [|? Hm'| | | | | | |]; subst. inversion Hm'; subst. cbn. lia.
Qed.
(** On any input: what the type with its names resolved to that depth gives, or an overflow. *)
Theorem C62_any_input : forall c items n i s, wf_items items ->
  run c (item_de c items n i) s = run c (de c (levels items n i)) s \/ run c (item_de c items n i) s = OPanic PStack.
Proof. intros c items n i s Hi. exact (item_agrees c items Hi n i s). Qed.
Theorem C62_decoded_fits : forall c items n i s v r, wf_cfg c -> 4096 <= heap_limit c -> wf_items items ->
  usize_bits c = 64 \/ lenN s < 2 ^ usize_bits c + lenN r ->
  bytes_ok s -> run c (item_de c items n i) s = OOk v r -> fits c items n i v.
Proof. intros c items n i s v r Hw Hh Hi Hc Hs H. exact (proj1 (item_decoded c items Hw Hh Hi n i s v r Hs Hc H)). Qed.
(** Types that do not refer to themselves need a fixed amount of stack. *)
Theorem C62_not_recursive : forall c items rank n i s, wf_cfg c -> 4096 <= heap_limit c -> wf_items items ->
  acyclic items rank -> (rank i < n)%nat -> (i < length items)%nat -> bytes_ok s ->
  run c (item_de c items n i) s = run c (de c (levels items n i)) s.
Proof. intros c items rank n i s Hw Hh Hi. exact (acyclic_no_overflow c items Hw Hh Hi rank n i s). Qed.
(** struct Tree { name: String, children: Vec<Tree> }; struct Forest { left: Leaf, id: u8 };
    enum Leaf { Nil, One(u16) } *)
Example C62_ex :
  let tree := [XStruct ["name"; "children"]%string [("name", XPlain DString); ("children", XVec (XItem 0))]%string] in
  let forest := [XStruct ["left"; "id"]%string [("left", XItem 1); ("id", XPlain DU8)]%string;
                 XEnum [(KUnit, XPlain DUnit); (KNewtype, XPlain DU16)]] in
  let leaf x := SStruct [("name", SStr [x]); ("children", SSeq (Some 0) [])]%string in
  let v := SStruct [("name", SStr []); ("children", SSeq (Some 2) [leaf 97; leaf 98])]%string in
  wf_items tree /\ fits c64 tree 2 0 v /\ ~ fits c64 tree 1 0 v /\
  wbytes (ser v) = [0; 2; 1; 97; 0; 1; 98; 0] /\
  run c64 (item_de c64 tree 1 0) [0; 2; 1; 97; 0; 1; 98; 0] = OPanic PStack /\
  run c64 (item_de c64 tree 2 0) [0; 2; 1; 97; 0; 1; 98; 0; 5] = OOk v [5] /\
  wf_items forest /\ acyclic forest (fun i => 1 - i)%nat /\
  run c64 (item_de c64 forest 2 0) [1; 172; 4; 9] = OOk (SStruct [("left", SNewtypeVariant 1 (SU16 300)); ("id", SU8 9)]%string) [].
Proof.
  cbv zeta. split.
  { apply Forall_cons; [|constructor]. split; [reflexivity|]. split; [reflexivity|]. intros j Hj.
    inversion Hj as [| | | | | | |? ? ? Hin Hm|]; subst. destruct Hin as [<-|[<-|[]]]; cbn [snd] in Hm; inversion Hm as [| | |? Hm'| | | | |]; subst.
    inversion Hm'; subst; cbn; lia. }
  split; [vm_compute; reflexivity|]. split; [vm_compute; discriminate|]. split; [vm_compute; reflexivity|].
  split; [vm_compute; reflexivity|]. split; [vm_compute; reflexivity|]. split.
  { apply Forall_cons; [|apply Forall_cons; [|constructor]]; (split; [reflexivity|]; split; [reflexivity|]; intros j Hj).
    - inversion Hj as [| | | | | | |? ? ? Hin Hm|]; subst. destruct Hin as [<-|[<-|[]]]; cbn [snd] in Hm; inversion Hm; subst; cbn; lia.
    - inversion Hj as [| | | | | | | |? ? Hin Hm]; subst. destruct Hin as [<-|[<-|[]]]; cbn [snd] in Hm; inversion Hm. }
  split; [|vm_compute; reflexivity].
  intros i t j E Hj. destruct i as [|[|i]]; cbn in E; try discriminate; [injection E as <-..|destruct i; discriminate].
  - inversion Hj as [| | | | | | |? ? ? Hin Hm|]; subst. destruct Hin as [<-|[<-|[]]]; cbn [snd] in Hm; inversion Hm; subst; lia.
  - inversion Hj as [| | | | | | | |? ? Hin Hm]; subst. destruct Hin as [<-|[<-|[]]]; cbn [snd] in Hm; inversion Hm.
Qed.
Print Assumptions C62_roundtrip.
Print Assumptions C62_truncated.
Print Assumptions C62_overflow.
Print Assumptions C62_no_limit_refuted.
Print Assumptions C62_any_input.
Print Assumptions C62_decoded_fits.
Print Assumptions C62_not_recursive.
