(** * Memory of recursive types: layouts and examples. *)
From Coq Require Import String.
From Verif Require Import Base Serde SpecDty SpecRequest Rec SpecRec Grow SpecGrow GrowRec SpecPeak ExGrow.
Local Open Scope string_scope.
Local Open Scope list_scope.
Local Open Scope N_scope.

(** Everything that takes bytes takes 32; a box of item i holds [box i] bytes. *)
Definition ex_layout (box : nat -> N) : layout := Layout ex_mem (fun t => if xoccupies t then 32 else 0) box.
Lemma ex_layout_sound box : sound_layout (ex_layout box) ex_entry.
Proof. split; [exact ex_mem_sound|]. intros t H. cbn [l_size ex_layout]. rewrite H. reflexivity. Qed.

(** struct Tree { value: u8, children: Vec<Tree> } *)
Definition tree : list xty := [XStruct ["value"; "children"] [("value", XPlain DU8); ("children", XVec (XItem 0))]].
(** struct Outer { inner: Box<Inner> } struct Inner { outer: Option<Box<Outer>>, tag: u8 } *)
Definition in_turn : list xty :=
  [XStruct ["inner"] [("inner", XItem 1)];
   XStruct ["outer"; "tag"] [("outer", XOption (XItem 0)); ("tag", XPlain DU8)]].
Definition in_turn_box (i : nat) : N := match i with O => 8 | _ => 16 end.
(** Only Outer begins with a box. *)
Definition in_turn_lead (i : nat) : N := match i with O => 16 | _ => 0 end.
(** Vectors of vectors of ... *)
Definition nest (n : nat) (d : dty) : dty := Nat.iter n DVec d.
(** A line of n nodes; a tree of n values one below the other. *)
Definition line (n : nat) : list N := repeat 1 n ++ [0].
Definition stalk (n : nat) : list N := concat (repeat [7; 1] n) ++ [7; 0].

Lemma node_wf : wf_items node.
Proof.
  constructor; [|constructor]. split; [reflexivity|]. split; [reflexivity|]. intros k H. inversion H as [| | | | | | |x1 x2 nf Hin Hm|]; subst. destruct Hin as [<-|[]]. cbn [snd] in Hm.
  inversion Hm as [|x1 Hm'| | | | | | |]; subst. inversion Hm'; subst. constructor.
Qed.
Lemma tree_wf : wf_items tree.
Proof.
  constructor; [|constructor]. split; [reflexivity|]. split; [reflexivity|]. intros k H. inversion H as [| | | | | | |x1 x2 nf Hin Hm|]; subst. destruct Hin as [<-|[<-|[]]]; cbn [snd] in Hm; [inversion Hm|].
  inversion Hm as [| | |x1 Hm'| | | | |]; subst. inversion Hm'; subst. constructor.
Qed.
Lemma in_turn_wf : wf_items in_turn.
Proof.
  constructor; [|constructor; [|constructor]]; (split; [reflexivity|split; [reflexivity|]]); intros k H; inversion H as [| | | | | | |x1 x2 nf Hin Hm|]; subst.
  - destruct Hin as [<-|[]]. cbn [snd] in Hm. inversion Hm; subst. repeat constructor.
  - destruct Hin as [<-|[<-|[]]]; cbn [snd] in Hm; [|inversion Hm]. inversion Hm as [|x1 Hm'| | | | | | |]; subst. inversion Hm'; subst. repeat constructor.
Qed.
