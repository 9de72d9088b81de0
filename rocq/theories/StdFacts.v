(** * Lemmas about standard library types (Std.v). *)
From Coq Require Import String ZifyBool ZifyNat ZifyN.
From Verif Require Import Base BaseFacts Varint VarintFacts Utf8 Serde Typing PrimFacts SerdeFacts SerdeProps SerdeSize Std SpecStd.
Local Open Scope list_scope.
Local Open Scope N_scope.

(** ** Reading side by side *)
Definition follows {W V} (c : cfg) (b m : bool) (R : W -> V -> Prop) (q : prog W) (p : prog V) : Prop :=
  forall s, read_as b m R (run c q s) (run c p s).

Lemma follows_weaken {W V} c (b b' m m' : bool) (R : W -> V -> Prop) q p :
  (b = true -> b' = true) -> (m = true -> m' = true) -> follows c b m R q p -> follows c b' m' R q p.
Proof. intros H Hm F s. destruct (F s) as [| | |w r Hb [Hw|Hw]| |]; constructor; auto. Qed.
Lemma follows_same {W} c b m (q : prog W) : follows c b m eq q q.
Proof. intros s. destruct (run c q s); constructor; reflexivity. Qed.
Lemma follows_ret {W V} c b m (R : W -> V -> Prop) w v : R w v -> follows c b m R (Ret w) (Ret v).
Proof. intros H s. constructor. exact H. Qed.
Lemma follows_bind {W V W' V'} c b m (R : W -> V -> Prop) (S : W' -> V' -> Prop) q p f g :
  follows c b m R q p -> (forall w v, R w v -> follows c b m S (f w) (g v)) ->
  (b = true -> forall w, (forall v, ~ R w v) -> forall s w' r, run c (f w) s = OOk w' r -> forall v', ~ S w' v') ->
  follows c b m S (bind q f) (bind p g).
Proof.
  intros F G Hn s. rewrite !run_bind. specialize (F s). destruct F as [w v r Hr|e|x|w r Hb Hw|e Hb|x Hb]; cbn [obind].
  - apply G, Hr.
  - constructor.
  - constructor.
  - destruct (run c (f w) r) as [w' r'|e|x] eqn:E; [|apply ra_err_early, Hb|apply ra_panic_early, Hb].
    apply ra_refused; [exact Hb|]. destruct Hw as [Hw|Hw]; [left; exact Hw|right]. exact (Hn Hb w Hw r w' r' E).
  - apply ra_err_early, Hb.
  - apply ra_panic_early, Hb.
Qed.
Lemma follows_pmap {W V W' V'} c b m (R : W -> V -> Prop) (S : W' -> V' -> Prop) q p (f : W -> W') (g : V -> V') :
  follows c b m R q p -> (forall w v, R w v -> S (f w) (g v)) ->
  (b = true -> forall w, (forall v, ~ R w v) -> forall v', ~ S (f w) v') ->
  follows c b m S (pmap f q) (pmap g p).
Proof.
  intros F H Hn. unfold pmap. apply (follows_bind c b m R S); [exact F| |].
  - intros w v Hr. apply follows_ret, H, Hr.
  - intros Hb w Hw s w' r E. cbn [run] in E. injection E as <- <-. apply (Hn Hb w Hw).
Qed.
Lemma follows_ext {W V} c b m (R : W -> V -> Prop) q q' p p' :
  (forall s, run c q s = run c q' s) -> (forall s, run c p s = run c p' s) ->
  follows c b m R q p -> follows c b m R q' p'.
Proof. intros Hq Hp F s. rewrite <- Hq, <- Hp. apply F. Qed.
(** One reader, then a step of its own. *)
Lemma follows_step {W V W'} c b m (S : W' -> V -> Prop) (q : prog W) (f : W -> W') (g : W -> prog V) :
  (forall w s, read_as b m S (OOk (f w) s) (run c (g w) s)) ->
  follows c b m S (pmap f q) (bind q g).
Proof.
  intros H s. rewrite run_pmap, run_bind. destruct (run c q s) as [w r|e|x]; cbn [obind]; [apply H| |]; constructor.
Qed.

Fixpoint related {W V} (Rs : list (W -> V -> Prop)) (ws : list W) (vs : list V) : Prop :=
  match Rs, ws, vs with
  | [], [], [] => True
  | R :: Rs, w :: ws, v :: vs => R w v /\ related Rs ws vs
  | _, _, _ => False
  end.
Lemma follows_sequence {W V} c b m (Rs : list (W -> V -> Prop)) qs ps :
  length qs = length Rs -> length ps = length Rs ->
  (forall i R q p, nth_error Rs i = Some R -> nth_error qs i = Some q -> nth_error ps i = Some p -> follows c b m R q p) ->
  follows c b m (related Rs) (sequence qs) (sequence ps).
Proof.
  revert qs ps; induction Rs as [|R Rs IH]; intros [|q qs] [|p ps] Hq Hp H; try discriminate.
  - apply follows_ret. exact I.
  - cbn [sequence]. apply (follows_bind c b m R).
    + apply (H O); reflexivity.
    + intros w v Hr. unfold pmap. apply (follows_bind c b m (related Rs)).
      * apply IH; [injection Hq; auto|injection Hp; auto|]. intros i R' q' p' A B D. apply (H (S i)); assumption.
      * intros ws vs Hs. apply follows_ret. split; assumption.
      * intros _ ws Hws s w' r E. cbn [run] in E. injection E as <- <-. intros [|v' vs'] Hv; [exact Hv|]. exact (Hws vs' (proj2 Hv)).
    + intros _ w Hw s w' r E. apply run_bind_ok in E as (ws & r' & _ & E). cbn [run] in E. injection E as <- <-.
      intros [|v' vs'] Hv; [exact Hv|]. exact (Hw v' (proj1 Hv)).
Qed.
Lemma follows_rep {W V} c b m (R : W -> V -> Prop) n q p : follows c b m R q p -> follows c b m (Forall2 R) (rep n q) (rep n p).
Proof.
  intros F. induction n as [|n IH]; [apply follows_ret; constructor|]. cbn [rep]. apply (follows_bind c b m R).
  - exact F.
  - intros w v Hr. apply (follows_bind c b m (Forall2 R)); [exact IH| |].
    + intros ws vs Hs. apply follows_ret. constructor; assumption.
    + intros _ ws Hws s w' r E. cbn [run] in E. injection E as <- <-. intros vs' Hv. inversion Hv; subst. eapply Hws; eassumption.
  - intros _ w Hw s w' r E. apply run_bind_ok in E as (ws & r' & _ & E). cbn [run] in E. injection E as <- <-.
    intros vs' Hv. inversion Hv; subst. eapply Hw; eassumption.
Qed.
Lemma follows_vec {W V} c b m (R : W -> V -> Prop) q p : follows c b m R q p -> follows c b m (Forall2 R) (de_vec c q) (de_vec c p).
Proof.
  intros F. unfold de_vec. apply (follows_bind c b m eq); [apply follows_same| |].
  - intros n ? <-. eapply follows_ext; [intros s; symmetry; apply run_repeatN|intros s; symmetry; apply run_repeatN|].
    apply follows_rep, F.
  - intros _ w Hw. destruct (Hw w eq_refl).
Qed.
Lemma follows_option {W V} c b m (R : W -> V -> Prop) q p : follows c b m R q p ->
  follows c b m (fun w v => match w, v with Some w, Some v => R w v | None, None => True | _, _ => False end) (de_option q) (de_option p).
Proof.
  intros F. unfold de_option. apply (follows_bind c b m eq); [apply follows_same| |].
  - intros x ? <-. destruct x; [|apply follows_ret; exact I]. apply (follows_pmap c b m R); [exact F|auto|].
    intros _ w Hw [v|]; [apply Hw|auto].
  - intros _ w Hw. destruct (Hw w eq_refl).
Qed.
(** With [m], it does not matter what the wire value stands for once a part was refused. *)
Lemma follows_bind_lax {W V W' V'} c b m (R : W -> V -> Prop) (S : W' -> V' -> Prop) q p f g : (b = true -> m = true) ->
  follows c b m R q p -> (forall w v, R w v -> follows c b m S (f w) (g v)) -> follows c b m S (bind q f) (bind p g).
Proof.
  intros Hm F G s. rewrite !run_bind. specialize (F s). destruct F as [w v r Hr|e|x|w r Hb Hw|e Hb|x Hb]; cbn [obind].
  - apply G, Hr.
  - constructor.
  - constructor.
  - destruct (run c (f w) r) as [w' r'|e|x]; [apply ra_refused; auto|apply ra_err_early, Hb|apply ra_panic_early, Hb].
  - apply ra_err_early, Hb.
  - apply ra_panic_early, Hb.
Qed.
Lemma follows_iter_lax {S T} c b m (I : S -> T -> Prop) f g n : (b = true -> m = true) ->
  (forall x y, I x y -> follows c b m I (f x) (g y)) -> forall x y, I x y -> follows c b m I (iter n f x) (iter n g y).
Proof.
  intros Hm F. induction n as [|n IH]; intros x y H; cbn [iter]; [apply follows_ret, H|].
  apply (follows_bind_lax c b m I); [exact Hm|apply F, H|exact IH].
Qed.
Definition same_entries {W V} (R : W -> V -> Prop) (ws : list (list N * W)) (vs : list (list N * V)) : Prop :=
  map fst ws = map fst vs /\ Forall2 R (map snd ws) (map snd vs).
Lemma same_insert {W V} (R : W -> V -> Prop) k w v ws vs : R w v -> same_entries R ws vs ->
  same_entries R (map_insert k w ws) (map_insert k v vs).
Proof.
  intros H [Hk Hv]. revert vs Hk Hv. induction ws as [|[k1 w1] ws IH]; intros [|[k2 v2] vs] Hk Hv; try discriminate; cbn [map_insert].
  - split; [reflexivity|]. repeat constructor. exact H.
  - cbn [map fst snd] in Hk, Hv. injection Hk as <- Hk. inversion Hv as [|? ? ? ? Hv1 Hv2]; subst. destruct (bytes_cmp k k1).
    + split; [cbn [map fst]; congruence|]. cbn [map snd]. constructor; assumption.
    + split; [cbn [map fst]; congruence|]. cbn [map snd]. constructor; [exact H|constructor; assumption].
    + destruct (IH vs Hk Hv2) as [E1 E2]. split; [cbn [map fst]; congruence|]. cbn [map snd]. constructor; assumption.
Qed.
Lemma follows_map {W V} c b m (R : W -> V -> Prop) q p : (b = true -> m = true) -> follows c b m R q p ->
  follows c b m (same_entries R) (de_map c q) (de_map c p).
Proof.
  intros Hm F. unfold de_map. apply (follows_bind_lax c b m eq); [exact Hm|apply follows_same|]. intros n ? <-. unfold de_map_n.
  eapply follows_ext; [intros s; symmetry; apply run_foldN|intros s; symmetry; apply run_foldN|].
  apply follows_iter_lax; [exact Hm| |split; [reflexivity|constructor]]. intros x y H.
  apply (follows_bind_lax c b m eq); [exact Hm|apply follows_same|]. intros k ? <-.
  apply (follows_bind_lax c b m R); [exact Hm|exact F|]. intros w v Hr. apply follows_ret, same_insert; assumption.
Qed.
(** Enums: the same alternatives on both sides, and none accepted beyond them. *)
Lemma follows_enum c b m (S : sval -> stdval -> Prop) (vs : list (vkind * dty)) (ps extra : list (prog stdval)) :
  Forall (fun p => p = Fail EMsg) extra -> length ps = length vs ->
  (forall i k d p, pickN vs i = Some (k, d) -> pickN ps i = Some p -> follows c b m S (pmap (variant_sval k i) (de c d)) p) ->
  follows c b m S (de c (DEnum vs)) (std_enum (ps ++ extra)).
Proof.
  intros He Hl H. cbn [de]. unfold de_enum, std_enum. apply (follows_bind c b m eq); [apply follows_same| |].
  - intros i ? <-. rewrite pickN_map. destruct (pickN vs i) as [[k d]|] eqn:Ev; cbn [option_map fst snd].
    + assert (Hp : exists p, pickN ps i = Some p).
      { destruct (pickN ps i) eqn:E; [eauto|]. apply pickN_none in E. apply pickN_some in Ev as [_ Ev]. unfold lenN in *. lia. }
      destruct Hp as [p Hp]. assert (Ea : pickN (ps ++ extra) i = Some p).
      { clear -Hp. revert i Hp. induction ps as [|x ps IH]; intros i Hp; [discriminate|]. cbn [pickN app] in *.
        destruct (i =? 0); [exact Hp|]. apply IH, Hp. }
      rewrite Ea. apply (H i k d p Ev Hp).
    + assert (Hf : forall s, run c (match pickN (ps ++ extra) i with Some p => p | None => Fail EMsg end) s = OErr EMsg).
      { intros s. assert (Hi : lenN ps <= i) by (apply pickN_none in Ev; unfold lenN in *; lia).
        clear -He Hi. revert i Hi. induction ps as [|x ps IH]; intros i Hi; cbn [app].
        - clear Hi. revert i. induction He as [|x l Hx He IH]; intros i; cbn [pickN]; [reflexivity|].
          destruct (i =? 0); [rewrite Hx; reflexivity|]. apply IH.
        - rewrite lenN_cons in Hi. cbn [pickN]. destruct (i =? 0) eqn:E; [lia|]. apply IH. lia. }
      intros s. rewrite Hf. constructor.
  - intros _ w Hw. destruct (Hw w eq_refl).
Qed.

(** ** Sets *)
Section Sets.
  Variable cmp : stdval -> stdval -> comparison.
  Hypothesis L : lawful cmp.
  Lemma cmp_refl x : cmp x x = Eq.
  Proof. destruct L as (A & _). specialize (A x x). destruct (cmp x x); [reflexivity|discriminate|discriminate]. Qed.
  Lemma cmp_eq_sym x y : cmp x y = Eq -> cmp y x = Eq.
  Proof. intros H. destruct L as (A & _). rewrite A, H. reflexivity. Qed.
  Lemma cmp_eq_r x y z : cmp x y = Eq -> cmp z x = cmp z y.
  Proof. intros H. destruct L as (A & _ & E). rewrite (A x z), (A y z), (E x y z H). reflexivity. Qed.
  Lemma insert_in x m z : In z (set_insert cmp x m) -> z = x \/ In z m.
  Proof.
    induction m as [|y m IH]; cbn [set_insert]; [intros [<-|[]]; auto|]. destruct (cmp x y).
    - auto.
    - intros [<-|H]; auto.
    - intros [<-|H]; [right; left; reflexivity|]. destruct (IH H); [auto|right; right; assumption].
  Qed.
  Lemma insert_keeps x m z : In z m -> In z (set_insert cmp x m).
  Proof.
    induction m as [|y m IH]; [intros []|]. intros H. cbn [set_insert]. destruct (cmp x y); [exact H|right; exact H|].
    destruct H as [<-|H]; [left; reflexivity|right; auto].
  Qed.
  Lemma insert_has x m : exists y, In y (set_insert cmp x m) /\ cmp x y = Eq.
  Proof.
    induction m as [|y m IH]; cbn [set_insert]; [exists x; split; [left; reflexivity|apply cmp_refl]|].
    destruct (cmp x y) eqn:E.
    - exists y. split; [left; reflexivity|exact E].
    - exists x. split; [left; reflexivity|apply cmp_refl].
    - destruct IH as (z & Hz & Ez). exists z. split; [right; exact Hz|exact Ez].
  Qed.
  (** The new member only joins when no equal one is there. *)
  Lemma insert_new x m : increasing cmp m -> (forall y, In y m -> cmp x y <> Eq) \/ set_insert cmp x m = m.
  Proof.
    destruct L as (A & T & E).
    induction m as [|y m IH]; cbn [set_insert increasing]; [left; intros y []|]. intros [Hy Hm]. destruct (cmp x y) eqn:Ex.
    - right; reflexivity.
    - left. intros z [<-|Hz]; [congruence|]. rewrite Forall_forall in Hy. rewrite (T x y z Ex (Hy z Hz)). discriminate.
    - destruct (IH Hm) as [H|H]; [left|right; rewrite H; reflexivity]. intros z [<-|Hz]; [congruence|auto].
  Qed.
  Lemma insert_increasing x m : increasing cmp m -> increasing cmp (set_insert cmp x m).
  Proof.
    destruct L as (A & T & E).
    induction m as [|y m IH]; cbn [set_insert]; [cbn [increasing]; auto|]. intros H. destruct (cmp x y) eqn:Ex; [exact H| |].
    - cbn [increasing]. split; [|exact H]. destruct H as [Hy _]. constructor; [exact Ex|].
      eapply Forall_impl; [|exact Hy]. intros z Hz. exact (T x y z Ex Hz).
    - destruct H as [Hy Hm]. split; [|apply IH, Hm]. apply Forall_forall. intros z Hz.
      destruct (insert_in x m z Hz) as [->|Hin]; [rewrite A, Ex; reflexivity|]. rewrite Forall_forall in Hy. auto.
  Qed.
  Lemma set_of_spec l : set_of_members cmp l (set_of cmp l).
  Proof.
    unfold set_of. assert (G : forall k m l0, set_of_members cmp l0 m ->
      set_of_members cmp (l0 ++ k) (fold_left (fun m x => set_insert cmp x m) k m)).
    { induction k as [|x k IH]; intros m l0 H; [rewrite app_nil_r; exact H|]. cbn [fold_left].
      replace (l0 ++ x :: k) with ((l0 ++ [x]) ++ k) by (rewrite <- app_assoc; reflexivity). apply IH. clear IH.
      destruct H as (Hi & Hc & Hf). split; [apply insert_increasing, Hi|]. split.
      - intros z Hz. apply in_app_or in Hz as [Hz|[<-|[]]].
        + destruct (Hc z Hz) as (y & Hy & Ey). exists y. split; [apply insert_keeps, Hy|exact Ey].
        + apply insert_has.
      - intros y Hy. destruct (insert_new x m Hi) as [Hn|Hn].
        + destruct (insert_in x m y Hy) as [->|Hin].
          * exists l0, []. split; [reflexivity|]. apply Forall_forall. intros z Hz Ez.
            destruct (Hc z Hz) as (w & Hw & Ew). apply (Hn w Hw).
            destruct L as (A & T & E). rewrite <- (E z x w Ez). exact Ew.
          * destruct (Hf y Hin) as (l1 & l2 & -> & Hl). exists l1, (l2 ++ [x]).
            split; [rewrite <- app_assoc; reflexivity|exact Hl].
        + rewrite Hn in Hy. destruct (Hf y Hy) as (l1 & l2 & -> & Hl). exists l1, (l2 ++ [x]).
          split; [rewrite <- app_assoc; reflexivity|exact Hl]. }
    apply (G l [] []). split; [exact I|]. split; [intros x []|intros y []].
  Qed.
  (** There is only one. *)
  Lemma first_unique l y z : In y l -> cmp y z = Eq ->
    (exists l1 l2, l = l1 ++ y :: l2 /\ Forall (fun x => cmp x y <> Eq) l1) ->
    (exists l1 l2, l = l1 ++ z :: l2 /\ Forall (fun x => cmp x z <> Eq) l1) -> y = z.
  Proof.
    intros _ E (a1 & a2 & Ea & Ha) (b1 & b2 & Eb & Hb). rewrite Ea in Eb. clear Ea l. revert b1 Eb Hb.
    induction a1 as [|x a1 IH]; intros [|x' b1] Eb Hb; cbn [app] in Eb; injection Eb.
    - auto.
    - intros _ <-. inversion Hb; subst. contradiction.
    - intros _ ->. inversion Ha; subst. apply cmp_eq_sym in E. contradiction.
    - intros Et <-. inversion Ha; subst. inversion Hb; subst. eapply IH; eassumption.
  Qed.
  Lemma increasing_unique m m' : increasing cmp m -> increasing cmp m' -> (forall x, In x m <-> In x m') -> m = m'.
  Proof.
    destruct L as (A & T & E).
    assert (Irr : forall x, cmp x x <> Lt) by (intros x; rewrite cmp_refl; discriminate).
    revert m'; induction m as [|x m IH]; intros [|x' m'] Hm Hm' Hin.
    - reflexivity.
    - destruct (proj2 (Hin x') (or_introl eq_refl)).
    - destruct (proj1 (Hin x) (or_introl eq_refl)).
    - cbn [increasing] in Hm, Hm'. destruct Hm as [Hx Hm], Hm' as [Hx' Hm']. rewrite Forall_forall in Hx, Hx'.
      assert (x = x') as <-.
      { destruct (proj1 (Hin x) (or_introl eq_refl)) as [<-|H1]; [reflexivity|].
        destruct (proj2 (Hin x') (or_introl eq_refl)) as [<-|H2]; [reflexivity|].
        destruct (Irr x (T x x' x (Hx _ H2) (Hx' _ H1))). }
      f_equal. apply IH; [exact Hm|exact Hm'|]. intros z. split; intros Hz.
      + destruct (proj1 (Hin z) (or_intror Hz)) as [<-|H]; [destruct (Irr _ (Hx _ Hz))|exact H].
      + destruct (proj2 (Hin z) (or_intror Hz)) as [<-|H]; [destruct (Irr _ (Hx' _ Hz))|exact H].
  Qed.
  Lemma set_unique l m m' : set_of_members cmp l m -> set_of_members cmp l m' -> m = m'.
  Proof.
    assert (G : forall m m', set_of_members cmp l m -> set_of_members cmp l m' -> forall x, In x m -> In x m').
    { intros m0 m0' (H1 & H2 & H3) (H1' & H2' & H3') x Hx.
      assert (Hl : In x l). { destruct (H3 x Hx) as (l1 & l2 & -> & _). apply in_or_app. right; left; reflexivity. }
      destruct (H2' x Hl) as (y & Hy & E). replace x with y; [exact Hy|]. symmetry.
      apply (first_unique l x y Hl E); auto. }
    intros H H'. apply increasing_unique; [apply H|apply H'|]. intros x. split; apply G; assumption.
  Qed.
  Lemma set_of_increasing m : increasing cmp m -> set_of_members cmp m m.
  Proof.
    intros H. split; [exact H|]. split; [intros x Hx; exists x; split; [exact Hx|apply cmp_refl]|].
    intros y Hy. induction m as [|x m IH]; [destruct Hy|]. destruct H as [Hx Hm]. destruct Hy as [<-|Hy].
    - exists [], m. split; [reflexivity|constructor].
    - destruct (IH Hm Hy) as (l1 & l2 & -> & Hl). exists (x :: l1), l2. split; [reflexivity|].
      constructor; [|exact Hl]. rewrite Forall_forall in Hx. rewrite (Hx y Hy). discriminate.
  Qed.
End Sets.

(** ** Types *)
Section StdtyInd.
  Variable P : stdty -> Prop.
  Hypothesis Hplain : forall d, P (TPlain d).
  Hypothesis Hnonzero : forall d, P (TNonZero d).
  Hypothesis Hoption : forall t, P t -> P (TOption t).
  Hypothesis Hvec : forall t, P t -> P (TVec t).
  Hypothesis Hset : forall cmp t, P t -> P (TSet cmp t).
  Hypothesis Harray : forall n t, P t -> P (TArray n t).
  Hypothesis Htuple : forall ts, Forall P ts -> P (TTuple ts).
  Hypothesis Hrange : forall t, P t -> P (TRange t).
  Hypothesis Hrangei : forall t, P t -> P (TRangeInclusive t).
  Hypothesis Hbound : forall t, P t -> P (TBound t).
  Hypothesis Hresult : forall t e, P t -> P e -> P (TResult t e).
  Hypothesis Hdur : P TDuration.
  Hypothesis Htime : P TSystemTime.
  Hypothesis Hcs : P TCString.
  Hypothesis Hos : P TOsString.
  Hypothesis Hpath : P TPathBuf.
  Hypothesis Hip4 : P TIp4.
  Hypothesis Hip6 : P TIp6.
  Hypothesis Hip : P TIpAddr.
  Hypothesis Hs4 : P TSock4.
  Hypothesis Hs6 : P TSock6.
  Hypothesis Hs : P TSockAddr.
  Hypothesis Hmap : forall t, P t -> P (TMap t).
  Hypothesis Hstruct : forall fs, Forall (fun nf => P (snd nf)) fs -> P (TStruct fs).
  Hypothesis Henum : forall vs, Forall (fun v => P (snd v)) vs -> P (TEnum vs).
  Fixpoint stdty_ind2 (t : stdty) : P t :=
    match t with
    | TPlain d => Hplain d | TNonZero d => Hnonzero d
    | TOption t => Hoption t (stdty_ind2 t)
    | TVec t => Hvec t (stdty_ind2 t)
    | TSet cmp t => Hset cmp t (stdty_ind2 t)
    | TArray n t => Harray n t (stdty_ind2 t)
    | TTuple ts => Htuple ts
        ((fix go l : Forall P l := match l with
          | [] => Forall_nil _ | t :: r => Forall_cons _ (stdty_ind2 t) (go r) end) ts)
    | TRange t => Hrange t (stdty_ind2 t)
    | TRangeInclusive t => Hrangei t (stdty_ind2 t)
    | TBound t => Hbound t (stdty_ind2 t)
    | TResult t e => Hresult t e (stdty_ind2 t) (stdty_ind2 e)
    | TDuration => Hdur | TSystemTime => Htime
    | TCString => Hcs | TOsString => Hos | TPathBuf => Hpath
    | TIp4 => Hip4 | TIp6 => Hip6 | TIpAddr => Hip
    | TSock4 => Hs4 | TSock6 => Hs6 | TSockAddr => Hs
    | TMap t => Hmap t (stdty_ind2 t)
    | TStruct fs => Hstruct fs
        ((fix go l : Forall (fun nf => P (snd nf)) l := match l with
          | [] => Forall_nil _ | nf :: r => Forall_cons _ (stdty_ind2 (snd nf)) (go r) end) fs)
    | TEnum vs => Henum vs
        ((fix go l : Forall (fun v => P (snd v)) l := match l with
          | [] => Forall_nil _ | v :: r => Forall_cons _ (stdty_ind2 (snd v)) (go r) end) vs)
    end.
End StdtyInd.

Lemma sequence_repeat {A} (p : prog A) n : sequence (repeat p n) = rep n p.
Proof. induction n as [|n IH]; [reflexivity|]. cbn [repeat sequence rep]. rewrite IH. reflexivity. Qed.
Lemma zero_iff w : zero w <-> is_zero w = true.
Proof.
  split.
  - intros H. repeat (destruct H as [<-|H]; [reflexivity|]). destruct H.
  - unfold zero. destruct w; cbn [is_zero]; intros H; try discriminate;
      first [apply N.eqb_eq in H|apply Z.eqb_eq in H]; subst; cbn [In]; tauto.
Qed.
Lemma related_all ts ws vs : related (map stands ts) ws vs <-> all_stand ts ws vs.
Proof.
  revert ws vs; induction ts as [|t ts IH]; intros ws vs; (split; [|intros H; inversion H; subst]).
  - destruct ws, vs; try contradiction. constructor.
  - exact I.
  - destruct ws, vs; try contradiction. cbn [map related]. intros [H1 H2]. constructor; [exact H1|apply IH, H2].
  - split; [assumption|apply IH; assumption].
Qed.

Lemma run_range c p miss mk s :
  run c (range_de p miss mk) s = run c (a <- p ;; b <- p ;; Ret (mk a b)) s.
Proof.
  unfold range_de, de_struct. cbn -[bind run]. rewrite !run_bind.
  destruct (run c p s) as [a r|e|x]; cbn [obind]; try reflexivity.
  rewrite !run_bind. destruct (run c p r) as [b r'|e|x]; reflexivity.
Qed.
Lemma run_pair c d e s : run c (de c (DTuple [d; e])) s = run c (a <- de c d ;; b <- de c e ;; Ret (STuple [a; b])) s.
Proof.
  cbn [de map sequence]. rewrite run_pmap, !run_bind. destruct (run c (de c d) s) as [a r|x|x]; cbn [obind]; try reflexivity.
  rewrite !run_bind. destruct (run c (de c e) r) as [b r'|x|x]; reflexivity.
Qed.
Lemma run_duration c x y s : String.eqb y x = false ->
  run c (duration_de x y) s = run c (a <- de_u64 ;; b <- de_u32 ;;
    if a + b / NANOS_PER_SEC <? 2 ^ 64 then Ret (a + b / NANOS_PER_SEC, b mod NANOS_PER_SEC) else Fail EMsg) s.
Proof.
  intros H. unfold duration_de, de_struct. cbn [struct_loop find_field map]. rewrite String.eqb_refl, H, String.eqb_refl.
  cbn -[bind run de_u64 de_u32 N.ltb N.add N.div N.modulo N.pow]. rewrite !run_bind.
  destruct (run c de_u64 s) as [a r|e|q]; cbn [obind]; try reflexivity.
  rewrite !run_bind. destruct (run c de_u32 r) as [b r'|e|q]; reflexivity.
Qed.
Lemma carry a b secs nanos : nanos < 10 ^ 9 -> a * 10 ^ 9 + b = secs * 10 ^ 9 + nanos ->
  secs = a + b / NANOS_PER_SEC /\ nanos = b mod NANOS_PER_SEC.
Proof.
  change (10 ^ 9) with 1000000000. unfold NANOS_PER_SEC. intros H E.
  pose proof (N.div_mod b 1000000000 ltac:(discriminate)) as D. pose proof (N.mod_lt b 1000000000 ltac:(discriminate)) as M.
  set (q := b / 1000000000) in *. set (r := b mod 1000000000) in *. clearbody q r. lia.
Qed.
Lemma carried b : b mod NANOS_PER_SEC < 10 ^ 9 /\ forall a, a * 10 ^ 9 + b = (a + b / NANOS_PER_SEC) * 10 ^ 9 + b mod NANOS_PER_SEC.
Proof.
  change (10 ^ 9) with 1000000000. unfold NANOS_PER_SEC.
  pose proof (N.div_mod b 1000000000 ltac:(discriminate)) as D. pose proof (N.mod_lt b 1000000000 ltac:(discriminate)) as M.
  set (q := b / 1000000000) in *. set (r := b mod 1000000000) in *. clearbody q r. split; [exact M|]. intros a. lia.
Qed.

Lemma follows_pair c b0 m0 d e (R R' : sval -> stdval -> Prop) (S : sval -> stdval -> Prop) p q (mk : stdval -> stdval -> stdval) :
  follows c b0 m0 R (de c d) p -> follows c b0 m0 R' (de c e) q ->
  (forall w v w' v', R w v -> R' w' v' -> S (STuple [w; w']) (mk v v')) ->
  (forall w w' v, S (STuple [w; w']) v -> exists a b, R w a /\ R' w' b) ->
  follows c b0 m0 S (de c (DTuple [d; e])) (a <- p ;; b <- q ;; Ret (mk a b)).
Proof.
  intros Hp Hq H1 H2. eapply follows_ext; [intros s; symmetry; apply run_pair|reflexivity|].
  apply (follows_bind c b0 m0 R); [exact Hp| |].
  - intros w v Hw. apply (follows_bind c b0 m0 R'); [exact Hq| |].
    + intros w' v' Hw'. apply follows_ret. auto.
    + intros _ w' Hw' s x r E. cbn [run] in E. injection E as <- <-. intros v' Hv. destruct (H2 _ _ _ Hv) as (a & b & _ & Hb). exact (Hw' b Hb).
  - intros _ w Hw s x r E. apply run_bind_ok in E as (w' & r' & _ & E). cbn [run] in E. injection E as <- <-.
    intros v' Hv. destruct (H2 _ _ _ Hv) as (a & b & Ha & _). exact (Hw a Ha).
Qed.
Lemma follows_octets c b m n : follows c b m (fun w l => w = STuple (map SU8 l)) (de c (DTuple (repeat DU8 n))) (octets_de n).
Proof.
  cbn [de]. unfold octets_de. assert (E : map (de c) (repeat DU8 n) = repeat (pmap SU8 de_u8) n).
  { induction n as [|n IH]; [reflexivity|]. cbn [repeat map]. rewrite IH. reflexivity. }
  rewrite E, !sequence_repeat. clear E.
  assert (F : follows c b m (fun ws l => ws = map SU8 l) (rep n (pmap SU8 de_u8)) (rep n de_u8)).
  { intros s. revert s. induction n as [|n IH]; intros s; [constructor; reflexivity|]. cbn [rep]. rewrite !run_bind, run_pmap.
    destruct (run c de_u8 s) as [x r|e|q]; cbn [obind]; [|constructor|constructor]. rewrite !run_bind. specialize (IH r).
    destruct IH as [w v r' ->|e|q|w r' Hb Hw|e Hb|q Hb]; cbn [obind run]; try (constructor; reflexivity || assumption).
    apply ra_refused; [exact Hb|]. destruct Hw as [Hw|Hw]; [left; exact Hw|right].
    intros [|v l] Hv; [discriminate|]. injection Hv as _ Hv. exact (Hw l Hv). }
  intros s. rewrite run_pmap. specialize (F s). destruct F as [w v r' ->|e|q|w r' Hb Hw|e Hb|q Hb]; cbn [obind]; constructor; auto.
  destruct Hw as [Hw|Hw]; [left; exact Hw|right]. intros l [= Hl]. exact (Hw l Hl).
Qed.
Lemma follows_u8s c b m : follows c b m (fun ws l => ws = map SU8 l) (de_vec c (pmap SU8 de_u8)) (de_vec c de_u8).
Proof.
  assert (F : follows c b m (Forall2 (fun w x => w = SU8 x)) (de_vec c (pmap SU8 de_u8)) (de_vec c de_u8)).
  { apply follows_vec. intros s. rewrite run_pmap. destruct (run c de_u8 s); constructor; reflexivity. }
  assert (G : forall ws l, Forall2 (fun w x => w = SU8 x) ws l <-> ws = map SU8 l).
  { intros ws l. split.
    - induction 1 as [|w x ws l -> _ ->]; reflexivity.
    - intros ->. induction l as [|x l IH]; constructor; auto. }
  intros s. specialize (F s). destruct F as [w v r' Hw|e|q|w r' Hb Hw|e Hb|q Hb]; constructor; auto.
  - apply G, Hw.
  - destruct Hw as [Hw|Hw]; [left; exact Hw|right]. intros l Hl. apply (Hw l), G, Hl.
Qed.
Lemma follows_sock c b m n : follows c b m (fun w v => w = STuple [STuple (map SU8 (fst v)); SU16 (snd v)])
  (de c (DTuple [DTuple (repeat DU8 n); DU16])) (l <- octets_de n ;; port <- de_u16 ;; Ret (l, port)).
Proof.
  eapply follows_ext; [intros s; symmetry; apply run_pair|reflexivity|].
  apply (follows_bind c b m (fun w l => w = STuple (map SU8 l))); [apply follows_octets| |].
  - intros w l ->. intros s. cbn [de]. rewrite !run_bind, run_pmap. destruct (run c de_u16 s); cbn [obind run]; constructor. reflexivity.
  - intros _ w Hw s x r E. apply run_bind_ok in E as (w' & r' & _ & E). cbn [run] in E. injection E as <- <-.
    intros [l port] [= Hl _]. exact (Hw l Hl).
Qed.

(** A reader without refusals, its result put in other words on both sides. *)
Lemma follows_view {W V W' V'} c b m (R : W -> V -> Prop) (S : W' -> V' -> Prop) q p (f : W -> W') (g : V -> V') :
  follows c b m R q p -> (forall w v, R w v -> S (f w) (g v)) ->
  (forall w v', S (f w) v' -> exists v, R w v) ->
  follows c b m S (pmap f q) (pmap g p).
Proof.
  intros F H1 H2. apply (follows_pmap c b m R); [exact F|exact H1|]. intros _ w Hw v' Hv. destruct (H2 w v' Hv) as [v Hr]. exact (Hw v Hr).
Qed.
Lemma follows_id {W V V'} c b m (R : W -> V -> Prop) (S : W -> V' -> Prop) q p (g : V -> V') :
  follows c b m R q p -> (forall w v, R w v -> S w (g v)) -> (forall w v', S w v' -> exists v, R w v) ->
  follows c b m S q (pmap g p).
Proof.
  intros F H1 H2 s. rewrite run_pmap. specialize (F s). destruct F as [w v r' Hw|e|x|w r' Hb Hw|e Hb|x Hb]; cbn [obind]; constructor; auto.
  destruct Hw as [Hw|Hw]; [left; exact Hw|right]. intros v' Hv. destruct (H2 w v' Hv) as [v Hr]. exact (Hw v Hr).
Qed.
Lemma some_eq {A} (a b : A) : Some a = Some b -> a = b.
Proof. congruence. Qed.
Lemma nonzero_inv d w v : stands (TNonZero d) w v -> ~ zero w.
Proof. intros H. inversion H; subst. assumption. Qed.
Lemma duration_inv a b v : stands TDuration (STuple [SU64 a; SU32 b]) v -> a + b / NANOS_PER_SEC < 2 ^ 64.
Proof. intros H. inversion H as [| | | | | | | | | | | | | | |? ? secs nanos H1 H2 H3| | | | | | | | | | | | | | | | | |]; subst. destruct (carry a b secs nanos H1 H3) as [-> _]. assumption. Qed.
Lemma time_inv a b v : stands TSystemTime (STuple [SU64 a; SU32 b]) v -> a + b / NANOS_PER_SEC < 2 ^ 63.
Proof. intros H. inversion H as [| | | | | | | | | | | | | | | |? ? secs nanos H1 H2 H3| | | | | | | | | | | | | | | | |]; subst. destruct (carry a b secs nanos H1 H3) as [-> _]. assumption. Qed.
Lemma cstring_inv bs v : stands TCString (SBytes bs) v -> ~ In 0 bs.
Proof. intros H. inversion H; subst. assumption. Qed.
Lemma sockaddr4_inv w v : stands TSockAddr (SNewtypeVariant 0 w) v -> exists v', stands TSock4 w v'.
Proof. intros H. inversion H; subst. eauto. Qed.
Lemma sockaddr6_inv w v : stands TSockAddr (SNewtypeVariant 1 w) v -> exists v', stands TSock6 w v'.
Proof. intros H. inversion H; subst. eauto. Qed.

Lemma follows_view_on {W V W' V'} c b m (P : W -> Prop) (R : W -> V -> Prop) (S : W' -> V' -> Prop) q p (f : W -> W') (g : V -> V') :
  follows c b m R q p -> (forall s w r, run c q s = OOk w r -> P w) -> (forall w v, R w v -> S (f w) (g v)) ->
  (forall w v', P w -> S (f w) v' -> exists v, R w v) ->
  follows c b m S (pmap f q) (pmap g p).
Proof.
  intros F HP H1 H2 s. rewrite !run_pmap. specialize (F s). specialize (HP s).
  destruct F as [w v r Hr|e|x|w r Hb Hw|e Hb|x Hb]; cbn [obind]; constructor; auto.
  destruct Hw as [Hw|Hw]; [auto|]. right. intros v' Hv. destruct (H2 w v' (HP _ _ eq_refl) Hv) as [v Hr]. exact (Hw v Hr).
Qed.
Lemma pickN_nth {A} (l : list A) i : pickN l i = nth_error l (N.to_nat i).
Proof.
  revert i; induction l as [|a l IH]; intros i; cbn [pickN]; [destruct (N.to_nat i); reflexivity|].
  destruct (N.eqb_spec i 0) as [->|Hi]; [reflexivity|]. rewrite IH. replace (N.to_nat i) with (Datatypes.S (N.to_nat (i - 1))) by lia. reflexivity.
Qed.
Lemma variant_stands vs k i t w v : pickN vs i = Some (k, t) -> payload k t -> (k = KUnit -> w = SUnit) -> stands t w v ->
  stands (TEnum vs) (variant_sval k i w) (XVariant k i v).
Proof.
  intros E Hp Hu H. rewrite pickN_nth in E. destruct k; cbn [payload] in Hp; cbn [variant_sval].
  - rewrite (Hu eq_refl) in H. eapply st_variant_unit; eassumption.
  - eapply st_variant_newtype; eassumption.
  - destruct Hp as [ts ->]. inversion H; subst. eapply st_variant_tuple; eassumption.
  - destruct Hp as [fs ->]. inversion H; subst. eapply st_variant_struct; eassumption.
Qed.
Lemma stands_variant vs k i t w v' : pickN vs i = Some (k, t) -> (k = KUnit -> w = SUnit) -> stands (TEnum vs) (variant_sval k i w) v' ->
  exists v, v' = XVariant k i v /\ stands t w v.
Proof.
  intros E Hu H. rewrite pickN_nth in E.
  destruct k; cbn [variant_sval] in H; try destruct w; cbn [variant_sval] in H; inversion H; subst;
    try (rewrite E in *; discriminate);
    match goal with Hn : nth_error _ _ = Some _ |- _ => rewrite E in Hn; injection Hn as <- end; try (eexists; split; [reflexivity|]; eassumption);
    specialize (Hu eq_refl); try discriminate; subst; eauto.
Qed.
Lemma proper_variant vs i k t : fold_right (fun v P => (payload (fst v) (snd v) /\ proper (snd v)) /\ P) True vs -> pickN vs i = Some (k, t) -> payload k t /\ proper t.
Proof.
  revert i; induction vs as [|x vs IH]; intros i; cbn [pickN fold_right]; [discriminate|]. intros [P1 P2]. destruct (i =? 0); [intros [= ->]; exact P1|apply IH, P2].
Qed.
Lemma map_map_fst {A B} (f : A -> B) (fs : list (string * A)) : map fst (map (fun nf => (fst nf, f (snd nf))) fs) = map fst fs.
Proof. rewrite map_map. reflexivity. Qed.
Lemma map_fst_combine {A B} (ks : list A) (l : list B) : length ks = length l -> map fst (combine ks l) = ks.
Proof. revert l; induction ks as [|k ks IH]; intros [|x l] H; try discriminate; [reflexivity|]. cbn [combine map fst]. f_equal. apply IH. injection H; auto. Qed.
Lemma map_snd_combine {A B} (ks : list A) (l : list B) : length ks = length l -> map snd (combine ks l) = l.
Proof. revert l; induction ks as [|k ks IH]; intros [|x l] H; try discriminate; [reflexivity|]. cbn [combine map snd]. f_equal. apply IH. injection H; auto. Qed.
Lemma all_stand_length ts ws vs : all_stand ts ws vs -> length ws = length ts /\ length vs = length ts.
Proof. revert ws vs; induction ts as [|t ts IH]; intros ws vs H; inversion H as [|? w v ? ws' vs' _ H']; subst; [auto|]. destruct (IH _ _ H'). cbn [length]. auto. Qed.
Lemma run_user_struct c fs s : NoDup (map fst fs) ->
  run c (std_de c (TStruct fs)) s = run c (pmap (fun l => XRecord (combine (map fst fs) l)) (sequence (map (fun nf => std_de c (snd nf)) fs))) s.
Proof.
  intros Hnd; cbn [std_de]. rewrite !run_pmap.
  pose proof (run_struct c (map (fun nf => (fst nf, std_de c (snd nf))) fs) (map (fun nf => std_missing (snd nf)) fs) s) as H.
  rewrite map_map_fst, !map_map, !map_length in H. cbn [snd] in H. rewrite H; [reflexivity|exact Hnd|reflexivity].
Qed.
Lemma std_follows c t : proper t -> follows c (refusing t) (shadowing t) (stands t) (de c (wire t)) (std_de c t).
Proof.
  induction t as [d|d|t IH|t IH|cmp t IH|n t IH|ts IH|t IH|t IH|t IH|t e IH IHe| | | | | | | | | | | |t IH|fs IH|vs IH] using stdty_ind2;
    cbn [proper wire refusing shadowing]; intros P; cbn [std_de].
  - apply (follows_id c _ _ eq); [apply follows_same| |]; [intros w ? <-; constructor|eauto].
  - intros s. rewrite run_bind. destruct (run c (de c d) s) as [w r|e|x]; cbn [obind]; [|constructor|constructor].
    destruct (is_zero w) eqn:E; cbn [run].
    + apply ra_refused; [reflexivity|right]. intros v H. apply (nonzero_inv _ _ _ H), zero_iff, E.
    + constructor. constructor. rewrite zero_iff, E. discriminate.
  - cbn [de]. eapply follows_view; [apply follows_option, (IH P)| |].
    + intros [w|] [v|] H; try contradiction; constructor; exact H.
    + intros [w|] v' H; [inversion H; subst; exists (Some v); assumption|exists None; exact I].
  - cbn [de]. eapply follows_view; [apply follows_vec, (IH P)| |].
    + intros ws vs H. constructor. exact H.
    + intros ws v' H. inversion H; subst. eauto.
  - destruct P as [Hl P]. cbn [de]. eapply follows_view; [apply follows_vec, (IH P)| |].
    + intros ws vs H. econstructor; [exact H|]. apply set_of_spec, Hl.
    + intros ws v' H. inversion H; subst. eauto.
  - cbn [de]. assert (E : map (de c) (repeat (wire t) n) = repeat (de c (wire t)) n).
    { clear. induction n as [|n IH]; [reflexivity|]. cbn [repeat map]. rewrite IH. reflexivity. }
    rewrite E, !sequence_repeat. eapply follows_view; [apply follows_rep, (IH P)| |].
    + intros ws vs H. constructor. exact H.
    + intros ws v' H. inversion H; subst. eauto.
  - cbn [de]. rewrite map_map. apply (follows_view c _ _ (related (map stands ts))).
    + apply follows_sequence; [rewrite !map_length; reflexivity..|].
      intros i R q p HR Hq Hp. rewrite nth_error_map in HR, Hq, Hp. destruct (nth_error ts i) as [t|] eqn:Et; [|discriminate].
      cbn [option_map] in HR, Hq, Hp. injection HR as <-. injection Hq as <-. injection Hp as <-.
      apply nth_error_In in Et. rewrite Forall_forall in IH. eapply follows_weaken; [| |apply (IH t Et)].
      * intros Hr. apply existsb_exists. eauto.
      * intros Hr. apply existsb_exists. eauto.
      * clear -P Et. induction ts as [|x ts IH]; [destruct Et|]. cbn [fold_right] in P. destruct P as [P1 P2]. destruct Et as [<-|Et]; auto.
    + intros ws vs H. constructor. apply related_all, H.
    + intros ws v' H. inversion H; subst. eexists. apply related_all. eassumption.
  - eapply follows_ext; [reflexivity|intros s; symmetry; apply run_range|].
    eapply follows_pair; [apply (IH P)|apply (IH P)| |].
    + intros. constructor; assumption.
    + intros w w' v H. inversion H; subst. eauto.
  - eapply follows_ext; [reflexivity|intros s; symmetry; apply run_range|].
    eapply follows_pair with (mk := fun a b => XRangeInclusive a b false); [apply (IH P)|apply (IH P)| |].
    + intros. constructor; assumption.
    + intros w w' v H. inversion H; subst. eauto.
  - apply (follows_enum c _ _ _ _ [Ret XUnbounded; pmap XIncluded (std_de c t); pmap XExcluded (std_de c t)] []); [constructor|reflexivity|].
    intros i k d p H1 H2. cbn [pickN] in H1, H2.
    destruct (i =? 0) eqn:E0; [apply N.eqb_eq in E0; subst i; injection H1 as <- <-; injection H2 as <-|].
    { cbn [de variant_sval]. apply follows_ret. constructor. }
    destruct (i - 1 =? 0) eqn:E1; [assert (i = 1) as -> by lia; injection H1 as <- <-; injection H2 as <-|].
    { apply (follows_view c _ _ (stands t)); [apply (IH P)|intros w v H; constructor; exact H|intros w v' H; inversion H; subst; eauto]. }
    destruct (i - 1 - 1 =? 0) eqn:E2; [assert (i = 2) as -> by lia; injection H1 as <- <-; injection H2 as <-|discriminate].
    apply (follows_view c _ _ (stands t)); [apply (IH P)|intros w v H; constructor; exact H|intros w v' H; inversion H; subst; eauto].
  - destruct P as [P Pe].
    apply (follows_enum c _ _ _ _ [pmap XOk (std_de c t); pmap XErr (std_de c e)] []); [constructor|reflexivity|].
    intros i k d p H1 H2. cbn [pickN] in H1, H2.
    destruct (i =? 0) eqn:E0; [apply N.eqb_eq in E0; subst i; injection H1 as <- <-; injection H2 as <-|].
    { apply (follows_view c _ _ (stands t)); [|intros w v H; constructor; exact H|intros w v' H; inversion H; subst; eauto].
      eapply follows_weaken; [| |apply (IH P)]; intros ->; reflexivity. }
    destruct (i - 1 =? 0) eqn:E1; [assert (i = 1) as -> by lia; injection H1 as <- <-; injection H2 as <-|discriminate].
    apply (follows_view c _ _ (stands e)); [|intros w v H; constructor; exact H|intros w v' H; inversion H; subst; eauto].
    eapply follows_weaken; [| |apply (IHe Pe)]; intros ->; apply Bool.orb_true_r.
  - intros s. unfold duration_wire. rewrite run_pair, run_pmap, run_duration by reflexivity. cbn [de]. rewrite !run_bind, run_pmap.
    destruct (run c de_u64 s) as [a r|e|x]; cbn [obind]; [|constructor|constructor]. rewrite !run_bind, run_pmap.
    destruct (run c de_u32 r) as [b r'|e|x]; cbn [obind run]; [|constructor|constructor].
    destruct (carried b) as [C1 C2].
    destruct (a + b / NANOS_PER_SEC <? 2 ^ 64) eqn:E; cbn [run obind fst snd].
    + constructor. constructor; [exact C1|lia|apply C2].
    + apply ra_refused; [reflexivity|right]. intros v H. apply duration_inv in H. lia.
  - intros s. unfold duration_wire. rewrite run_pair, (run_bind c (duration_de _ _)), run_duration by reflexivity. cbn [de]. rewrite !run_bind, run_pmap.
    destruct (run c de_u64 s) as [a r|e|x]; cbn [obind]; [|constructor|constructor]. rewrite !run_bind, run_pmap.
    destruct (run c de_u32 r) as [b r'|e|x]; cbn [obind run]; [|constructor|constructor].
    destruct (carried b) as [C1 C2].
    assert (Hno : 2 ^ 63 <= a + b / NANOS_PER_SEC -> forall v, ~ stands TSystemTime (STuple [SU64 a; SU32 b]) v).
    { intros Hb v H. apply time_inv in H. lia. }
    destruct (a + b / NANOS_PER_SEC <? 2 ^ 64) eqn:E; cbn [run obind fst snd].
    + destruct (a + b / NANOS_PER_SEC <? 2 ^ 63) eqn:E2; cbn [run].
      * constructor. constructor; [exact C1|lia|apply C2].
      * apply ra_refused; [reflexivity|right]. apply Hno. lia.
    + apply ra_refused; [reflexivity|right]. apply Hno. assert (2 ^ 63 < 2 ^ 64) by reflexivity. lia.
  - cbn [de]. apply follows_step. intros bs s. destruct (existsb (N.eqb 0) bs) eqn:E; cbn [run].
    + apply ra_refused; [reflexivity|right]. intros v H. apply (cstring_inv _ _ H).
      apply existsb_exists in E as (x & Hx & E). apply N.eqb_eq in E. subst x. exact Hx.
    + constructor. constructor. intros Hin. enough (existsb (N.eqb 0) bs = true) by congruence.
      apply existsb_exists. exists 0. auto.
  - apply (follows_enum c _ _ _ _ [pmap XOsString (de_vec c de_u8)] [Fail EMsg]); [repeat constructor|reflexivity|].
    intros i k d p H1 H2. cbn [pickN] in H1, H2.
    destruct (i =? 0) eqn:E0; [apply N.eqb_eq in E0; subst i; injection H1 as <- <-; injection H2 as <-|discriminate].
    cbn [de]. eapply follows_ext with (q := pmap (fun l => SNewtypeVariant 0 (SSeq (Some (lenN l)) l)) (de_vec c (pmap SU8 de_u8))).
    { intros s. rewrite !run_pmap. destruct (run c _ s); reflexivity. } { reflexivity. }
    eapply follows_view; [apply follows_u8s|intros ws l ->; constructor|].
    intros ws v' H. inversion H; subst. eauto.
  - cbn [de]. apply (follows_view c _ _ eq); [apply follows_same|intros w ? <-; constructor|eauto].
  - apply (follows_id c _ _ (fun w l => w = STuple (map SU8 l))); [apply follows_octets|intros w l ->; constructor|].
    intros w v' H. inversion H; subst. eauto.
  - apply (follows_id c _ _ (fun w l => w = STuple (map SU8 l))); [apply follows_octets|intros w l ->; constructor|].
    intros w v' H. inversion H; subst. eauto.
  - apply (follows_enum c _ _ _ _ [pmap XV4 (pmap XIp4 (octets_de 4)); pmap XV6 (pmap XIp6 (octets_de 16))] []); [constructor|reflexivity|].
    intros i k d p H1 H2. cbn [pickN] in H1, H2.
    destruct (i =? 0) eqn:E0; [apply N.eqb_eq in E0; subst i; injection H1 as <- <-; injection H2 as <-|].
    { apply (follows_view c _ _ (fun w v => stands TIp4 w v)); [|intros w v H; constructor; exact H|intros w v' H; inversion H; subst; eauto].
      apply (follows_id c _ _ (fun w l => w = STuple (map SU8 l))); [apply follows_octets|intros w l ->; constructor|].
      intros w v' H. inversion H; subst. eauto. }
    destruct (i - 1 =? 0) eqn:E1; [assert (i = 1) as -> by lia; injection H1 as <- <-; injection H2 as <-|discriminate].
    apply (follows_view c _ _ (fun w v => stands TIp6 w v)); [|intros w v H; constructor; exact H|intros w v' H; inversion H; subst; eauto].
    apply (follows_id c _ _ (fun w l => w = STuple (map SU8 l))); [apply follows_octets|intros w l ->; constructor|].
    intros w v' H. inversion H; subst. eauto.
  - eapply follows_ext with (p := pmap (fun x => XSock4 (fst x) (snd x)) (l <- octets_de 4 ;; port <- de_u16 ;; Ret (l, port))); [reflexivity| |].
    { intros s. rewrite run_pmap, !run_bind. destruct (run c (octets_de 4) s) as [l r|e|x]; cbn [obind]; try reflexivity.
      rewrite !run_bind. destruct (run c de_u16 r); reflexivity. }
    eapply follows_id; [apply follows_sock|intros w [l port] ->; constructor|].
    intros w v' H. inversion H; subst. exists (l, port). reflexivity.
  - eapply follows_ext with (p := pmap (fun x => XSock6 (fst x) (snd x) 0 0) (l <- octets_de 16 ;; port <- de_u16 ;; Ret (l, port))); [reflexivity| |].
    { intros s. rewrite run_pmap, !run_bind. destruct (run c (octets_de 16) s) as [l r|e|x]; cbn [obind]; try reflexivity.
      rewrite !run_bind. destruct (run c de_u16 r); reflexivity. }
    eapply follows_id; [apply follows_sock|intros w [l port] ->; constructor|].
    intros w v' H. inversion H; subst. exists (l, port). reflexivity.
  - match goal with |- follows _ _ _ _ _ (std_enum ?l) => apply (follows_enum c _ _ _ _ l []) end; [constructor|reflexivity|].
    intros i k d p H1 H2. cbn [pickN] in H1, H2.
    destruct (i =? 0) eqn:E0; [apply N.eqb_eq in E0; subst i; injection H1 as <- <-; apply some_eq in H2; subst p|].
    { eapply follows_ext with (p := pmap (fun x => XV4 (XSock4 (fst x) (snd x))) (l <- octets_de 4 ;; port <- de_u16 ;; Ret (l, port))); [reflexivity| |].
      { intros s. rewrite run_pmap, !run_bind. destruct (run c (octets_de 4) s) as [l r|e|x]; cbn [obind]; try reflexivity.
        rewrite !run_bind. destruct (run c de_u16 r); reflexivity. }
      eapply follows_view; [apply follows_sock|intros w [l port] ->; constructor; constructor|].
      intros w v' H. apply sockaddr4_inv in H as [v H']. inversion H'; subst. exists (l, port). reflexivity. }
    destruct (i - 1 =? 0) eqn:E1; [assert (i = 1) as -> by lia; injection H1 as <- <-; apply some_eq in H2; subst p|discriminate].
    eapply follows_ext with (p := pmap (fun x => XV6 (XSock6 (fst x) (snd x) 0 0)) (l <- octets_de 16 ;; port <- de_u16 ;; Ret (l, port))); [reflexivity| |].
    { intros s. rewrite run_pmap, !run_bind. destruct (run c (octets_de 16) s) as [l r|e|x]; cbn [obind]; try reflexivity.
      rewrite !run_bind. destruct (run c de_u16 r); reflexivity. }
    eapply follows_view; [apply follows_sock|intros w [l port] ->; constructor; constructor|].
    intros w v' H. apply sockaddr6_inv in H as [v H']. inversion H'; subst. exists (l, port). reflexivity.
  - cbn [de]. apply (follows_view c _ _ (same_entries (stands t))).
    + apply follows_map; [intros ->; reflexivity|]. eapply follows_weaken; [| |apply (IH P)]; [auto|intros ->; apply Bool.orb_true_r].
    + intros ws vs [H1 H2]. constructor.
      * rewrite !map_map. cbn [fst]. rewrite <- (map_map fst SStr ws), <- (map_map fst SStr vs), H1. reflexivity.
      * rewrite map_map. exact H2.
    + intros ws v H. inversion H as [| | | | | | | | | | | | | | | | | | | | | | | | | | | |? ? ? vs Hk Hv| | | | |]; subst. exists vs.
      rewrite !map_map in Hk. rewrite map_map in Hv. split; [|exact Hv]. cbn [fst] in Hk.
      clear -Hk. revert vs Hk. induction ws as [|x ws IH]; intros [|y vs] Hk; try discriminate; [reflexivity|].
      cbn [map] in *. injection Hk as Hk1 Hk2. f_equal; [exact Hk1|apply IH, Hk2].
  - destruct P as [Hnd P].
    eapply follows_ext; [intros s; symmetry; rewrite <- (map_map_fst wire fs); apply run_de_struct; rewrite map_map_fst; exact Hnd
      |intros s; symmetry; apply run_user_struct; exact Hnd|].
    rewrite map_map_fst, map_map. cbn [snd]. apply (follows_view_on c _ _ (fun ws => length ws = length fs) (related (map (fun nf => stands (snd nf)) fs))).
    + apply follows_sequence; [rewrite !map_length; reflexivity..|].
      intros i R q p HR Hq Hp. rewrite nth_error_map in HR, Hq, Hp. destruct (nth_error fs i) as [[n t]|] eqn:Et; [|discriminate].
      cbn [option_map snd] in HR, Hq, Hp. injection HR as <-. injection Hq as <-. injection Hp as <-.
      apply nth_error_In in Et. rewrite Forall_forall in IH. eapply follows_weaken; [| |apply (IH (n, t) Et)].
      * intros Hr. apply existsb_exists. eauto.
      * intros Hr. apply existsb_exists. eauto.
      * clear -P Et. induction fs as [|x fs IH]; [destruct Et|]. cbn [fold_right] in P. destruct P as [P1 P2]. destruct Et as [->|Et]; [exact P1|auto].
    + intros s ws r H. apply run_sequence_length in H. rewrite map_length in H. exact H.
    + intros ws vs H. rewrite <- (map_map snd stands) in H. apply related_all in H.
      assert (L : length ws = length fs /\ length vs = length fs).
      { destruct (all_stand_length _ _ _ H) as [L1 L2]. rewrite map_length in *. auto. }
      constructor; [apply map_fst_combine|apply map_fst_combine|rewrite !map_snd_combine; [exact H|..]]; rewrite map_length; symmetry; apply L.
    + intros ws v' L H. inversion H as [| | | | | | | | | | | | | | | | | | | | | | | | | | | | |? ? vs _ _ A| | | |]; subst.
      exists (map snd vs). rewrite <- (map_map snd stands). apply related_all. rewrite map_snd_combine in A by (rewrite map_length; auto). exact A.
  - cbn [de]. unfold de_enum, user_enum. rewrite map_map. cbn [fst snd].
    apply (follows_bind c _ _ eq); [apply follows_same| |intros _ w Hw; destruct (Hw w eq_refl)].
    intros i ? <-. rewrite !pickN_map. destruct (pickN vs i) as [[k t]|] eqn:E; cbn [option_map fst snd]; [|intros s; constructor].
    destruct (proper_variant _ _ _ _ P E) as [Hp Pt]. pose proof (pickN_some _ _ _ E) as [Hin _].
    apply (follows_view_on c _ _ (fun w => k = KUnit -> w = SUnit) (fun w v => (k = KUnit -> w = SUnit) /\ stands t w v)).
    + rewrite Forall_forall in IH. assert (F : follows c (refusing (TEnum vs)) (shadowing (TEnum vs)) (stands t) (de c (wire t)) (std_de c t)).
      { eapply follows_weaken; [| |apply (IH (k, t) Hin Pt)]; intros Hr; cbn [refusing shadowing]; apply existsb_exists; eauto. }
      intros s. specialize (F s). assert (HU : k = KUnit -> de c (wire t) = Ret SUnit) by (intros ->; rewrite Hp; reflexivity).
      destruct (run c (de c (wire t)) s) as [w r|e|x] eqn:Ew; inversion F as [? ? ? Hr|?|?|? ? Hb Hw|? Hb|? Hb]; subst; constructor; auto.
      * split; [|exact Hr]. intros Hk. rewrite (HU Hk) in Ew. cbn [run] in Ew. congruence.
      * destruct Hw as [Hw|Hw]; [auto|]. right. intros v [_ Hv]. exact (Hw v Hv).
    + intros s w r Hr Hk. subst k. rewrite Hp in Hr. cbn [wire de run] in Hr. congruence.
    + intros w v [Hk H]. apply (variant_stands vs k i t); assumption.
    + intros w v' Hk H. destruct (stands_variant _ _ _ _ _ _ E Hk H) as (v & _ & Hv). exists v. auto.
Qed.

(** ** A wire value stands for at most one value *)
Lemma octets_inj l l' : map SU8 l = map SU8 l' -> l = l'.
Proof.
  revert l'; induction l as [|x l IH]; intros [|y l'] H; try discriminate; [reflexivity|].
  cbn [map] in H. injection H as -> H. rewrite (IH l' H). reflexivity.
Qed.
Lemma Forall2_fun {W V} (R : W -> V -> Prop) ws vs vs' : (forall w v v', R w v -> R w v' -> v = v') ->
  Forall2 R ws vs -> Forall2 R ws vs' -> vs = vs'.
Proof.
  intros H F. revert vs'. induction F as [|w v ws vs Hw F IH]; intros vs' F'; inversion F'; subst; [reflexivity|].
  f_equal; eauto.
Qed.
Lemma pairs_inj {A B} (l l' : list (A * B)) : map fst l = map fst l' -> map snd l = map snd l' -> l = l'.
Proof.
  revert l'; induction l as [|[a b] l IH]; intros [|[a' b'] l'] H1 H2; try discriminate; [reflexivity|].
  cbn [map fst snd] in *. injection H1 as -> H1. injection H2 as -> H2. f_equal. auto.
Qed.
Lemma key_names {V} (l : list (list N * V)) : map (fun kv => SStr (fst kv)) l = map SStr (map fst l).
Proof. rewrite map_map. reflexivity. Qed.
Lemma SStr_inj l l' : map SStr l = map SStr l' -> l = l'.
Proof.
  revert l'; induction l as [|x l IH]; intros [|y l'] H; try discriminate; [reflexivity|].
  cbn [map] in H. injection H as -> H. rewrite (IH l' H). reflexivity.
Qed.
Lemma all_stand_fun ts : Forall (fun t => forall w v v', stands t w v -> stands t w v' -> v = v') ts ->
  forall ws vs vs', all_stand ts ws vs -> all_stand ts ws vs' -> vs = vs'.
Proof.
  induction 1 as [|t ts Ht _ IH]; intros ws vs vs' A A'; inversion A; subst; inversion A'; subst; [reflexivity|]. f_equal; eauto.
Qed.
Lemma stands_fun t : proper t -> forall w v v', stands t w v -> stands t w v' -> v = v'.
Proof.
  induction t as [d|d|t IH|t IH|cmp t IH|n t IH|ts IH|t IH|t IH|t IH|t e IH IHe| | | | | | | | | | | |t IH|fs IH|vs IH] using stdty_ind2;
    cbn [proper]; intros P w v v' H H'.
  - inversion H; subst. inversion H'; subst. reflexivity.
  - inversion H; subst. inversion H'; subst. reflexivity.
  - inversion H; subst; inversion H'; subst; [reflexivity|]. f_equal. eauto.
  - inversion H; subst; inversion H'; subst. f_equal. eapply Forall2_fun; eauto.
  - destruct P as [Hl P]. inversion H as [| | | | |? ? ? ws vs m F Hm| | | | | | | | | | | | | | | | | | | | | | | | | | | |]; subst.
    inversion H' as [| | | | |? ? ? ws' vs' m' F' Hm'| | | | | | | | | | | | | | | | | | | | | | | | | | | |]; subst.
    assert (vs = vs') as <- by (eapply Forall2_fun; [apply (IH P)|eassumption..]).
    f_equal. eapply set_unique; eassumption.
  - inversion H; subst; inversion H'; subst. f_equal. eapply Forall2_fun; eauto.
  - inversion H as [| | | | | | |? ws vs A| | | | | | | | | | | | | | | | | | | | | | | | | |]; subst.
    inversion H' as [| | | | | | |? ws' vs' A'| | | | | | | | | | | | | | | | | | | | | | | | | |]; subst. f_equal. clear H H'.
    revert ws vs vs' A A'. induction IH as [|t ts IHt IH IH2]; intros ws vs vs' A A'; inversion A; subst; inversion A'; subst; [reflexivity|].
    cbn [fold_right] in P. destruct P as [P1 P2]. f_equal; eauto.
  - inversion H; subst; inversion H'; subst. f_equal; eauto.
  - inversion H; subst; inversion H'; subst. f_equal; eauto.
  - inversion H; subst; inversion H'; subst; f_equal; eauto.
  - destruct P as [P Pe]. inversion H; subst; inversion H'; subst; f_equal; eauto.
  - inversion H as [| | | | | | | | | | | | | | |a b secs nanos H1 H2 H3| | | | | | | | | | | | | | | | | |]; subst.
    inversion H' as [| | | | | | | | | | | | | | |a' b' secs' nanos' H1' H2' H3'| | | | | | | | | | | | | | | | | |]; subst.
    destruct (carry _ _ _ _ H1 H3) as [-> ->]. destruct (carry _ _ _ _ H1' H3') as [-> ->]. reflexivity.
  - inversion H as [| | | | | | | | | | | | | | | |a b secs nanos H1 H2 H3| | | | | | | | | | | | | | | | |]; subst.
    inversion H' as [| | | | | | | | | | | | | | | |a' b' secs' nanos' H1' H2' H3'| | | | | | | | | | | | | | | | |]; subst.
    destruct (carry _ _ _ _ H1 H3) as [-> ->]. destruct (carry _ _ _ _ H1' H3') as [-> ->]. reflexivity.
  - inversion H; subst; inversion H'; subst; reflexivity.
  - inversion H; subst; inversion H' as [| | | | | | | | | | | | | | | | | |? ? E0| | | | | | | | | | | | | | |]; subst. f_equal. apply octets_inj. congruence.
  - inversion H; subst; inversion H'; subst; reflexivity.
  - inversion H; subst; inversion H'; subst. f_equal. apply octets_inj. congruence.
  - inversion H; subst; inversion H'; subst. f_equal. apply octets_inj. congruence.
  - assert (G : forall w v v', stands TIp4 w v -> stands TIp4 w v' -> v = v').
    { clear. intros w v v' H H'. inversion H; subst; inversion H'; subst. f_equal. apply octets_inj. congruence. }
    assert (G6 : forall w v v', stands TIp6 w v -> stands TIp6 w v' -> v = v').
    { clear. intros w v v' H H'. inversion H; subst; inversion H'; subst. f_equal. apply octets_inj. congruence. }
    inversion H; subst; inversion H'; subst; f_equal; eauto.
  - inversion H; subst; inversion H'; subst. f_equal. apply octets_inj. congruence.
  - inversion H; subst; inversion H'; subst. f_equal. apply octets_inj. congruence.
  - assert (G : forall w v v', stands TSock4 w v -> stands TSock4 w v' -> v = v').
    { clear. intros w v v' H H'. inversion H; subst; inversion H'; subst. f_equal. apply octets_inj. congruence. }
    assert (G6 : forall w v v', stands TSock6 w v -> stands TSock6 w v' -> v = v').
    { clear. intros w v v' H H'. inversion H; subst; inversion H'; subst. f_equal. apply octets_inj. congruence. }
    inversion H; subst; inversion H'; subst; f_equal; eauto.
  - inversion H as [| | | | | | | | | | | | | | | | | | | | | | | | | | | |? ? ws vs Hk Hv| | | | |]; subst.
    inversion H' as [| | | | | | | | | | | | | | | | | | | | | | | | | | | |? ? ws' vs' Hk' Hv'| | | | |]; subst.
    f_equal. apply pairs_inj.
    + rewrite !key_names in *. apply SStr_inj. congruence.
    + eapply Forall2_fun; [apply (IH P)|eassumption..].
  - destruct P as [_ P]. inversion H as [| | | | | | | | | | | | | | | | | | | | | | | | | | | | |? ws vs _ Hn A| | | |]; subst.
    inversion H' as [| | | | | | | | | | | | | | | | | | | | | | | | | | | | |? ws' vs' _ Hn' A'| | | |]; subst.
    f_equal. apply pairs_inj; [congruence|]. revert A A'. apply all_stand_fun. clear -IH P.
    induction IH as [|[n t] fs Ht IH IH2]; [constructor|]. cbn [fold_right snd map] in *. destruct P as [P1 P2]. constructor; [exact (Ht P1)|exact (IH2 P2)].
  - assert (G : forall i k t, nth_error vs (N.to_nat i) = Some (k, t) -> forall w v v', stands t w v -> stands t w v' -> v = v').
    { intros i k t E. rewrite <- pickN_nth in E. destruct (proper_variant _ _ _ _ P E) as [_ Pt]. pose proof (pickN_some _ _ _ E) as [Hin _].
      rewrite Forall_forall in IH. exact (IH (k, t) Hin Pt). }
    inversion H as [| | | | | | | | | | | | | | | | | | | | | | | | | | | | | |? i t v0 E S0|? i t w0 v0 E S0|? i t ws v0 E S0|? i t ws v0 E S0]; subst;
    inversion H' as [| | | | | | | | | | | | | | | | | | | | | | | | | | | | | |? i' t' v0' E' S0'|? i' t' w0' v0' E' S0'|? i' t' ws' v0' E' S0'|? i' t' ws' v0' E' S0']; subst;
    rewrite E in E'; injection E' as <-; f_equal; eapply G; eassumption.
Qed.

(** ** Writing *)
Definition writes_as (c : cfg) (t : stdty) (v v' : stdval) : Prop :=
  exists w, ser (std_sval v) = ser w /\ has_ty c (wire t) w = true /\ stands t w v'.
Lemma writes_all c t l l' : Forall2 (writes_as c t) l l' ->
  exists ws, map ser (map std_sval l) = map ser ws /\ forallb (has_ty c (wire t)) ws = true /\ length ws = length l /\ Forall2 (stands t) ws l'.
Proof.
  induction 1 as [|v v' l l' (w & E & Hw & Hs) F (ws & IE & IH & IL & IS)]; [exists []; repeat split; constructor|].
  exists (w :: ws). cbn [map forallb length]. rewrite E, IE, Hw, IH, IL. repeat split. constructor; assumption.
Qed.
Lemma octets_ty c n l : bytes_ok l -> length l = n -> has_ty c (DTuple (repeat DU8 n)) (STuple (map SU8 l)) = true.
Proof.
  intros B <-. cbn [has_ty]. induction B as [|x l Hx B IH]; [reflexivity|]. cbn [length repeat map forall2b].
  rewrite IH. apply Bool.andb_true_iff. split; [|reflexivity]. cbn [has_ty]. apply N.ltb_lt. exact Hx.
Qed.
Lemma Forall2_mono {A B} (R S : A -> B -> Prop) l m : (forall a b, R a b -> S a b) -> Forall2 R l m -> Forall2 S l m.
Proof. intros H. induction 1; constructor; auto. Qed.

Lemma sorted_same {V W} (m : list (list N * V)) (m' : list (list N * W)) : map fst m = map fst m' -> sorted_keys m = sorted_keys m'.
Proof.
  revert m'; induction m as [|[k v] m IH]; intros [|[k' v'] m'] H; try discriminate; [reflexivity|]. cbn [map fst] in H. injection H as <- H.
  specialize (IH m' H). cbn [sorted_keys]. destruct m as [|[a b] m], m' as [|[a' b'] m']; try discriminate; [reflexivity|].
  cbn [map fst] in H. injection H as <- H. rewrite IH. reflexivity.
Qed.
Lemma strkeys_of {V} (f : V -> sval) m : strkeys (map (fun kv => (SStr (fst kv), f (snd kv))) m) = Some (map (fun kv => (fst kv, f (snd kv))) m).
Proof. induction m as [|[k v] m IH]; [reflexivity|]. cbn [map fst snd strkeys strkey]. rewrite IH. reflexivity. Qed.
Lemma writes_each c ts : Forall (fun t => forall v v', comes_back c t v v' -> writes_as c t v v') ts -> forall l l', all_back c ts l l' ->
  exists ws, map ser (map std_sval l) = map ser ws /\ forall2b (map (has_ty c) (map wire ts)) ws = true /\ all_stand ts ws l'.
Proof.
  induction 1 as [|t ts IHt IH IH2]; intros l l' A; inversion A as [|? x x' ? k k' Hx A']; subst.
  - exists []. repeat split. constructor.
  - destruct (IHt _ _ Hx) as (w & E & Hw & Hs). destruct (IH2 _ _ A') as (ws & IE & IW & IS).
    exists (w :: ws). cbn [map forall2b]. rewrite E, IE, Hw, IW. repeat split. constructor; assumption.
Qed.
Lemma std_written c t : proper t -> forall v v', comes_back c t v v' -> writes_as c t v v'.
Proof.
  induction t as [d|d|t IH|t IH|cmp t IH|n t IH|ts IH|t IH|t IH|t IH|t e IH IHe| | | | | | | | | | | |t IH|fs IH|vs IH] using stdty_ind2;
    cbn [proper]; intros P v v' H; unfold writes_as; cbn [wire].
  - inversion H; subst. eexists. split; [reflexivity|]. split; [assumption|constructor].
  - inversion H; subst. eexists. split; [reflexivity|]. split; [assumption|constructor; assumption].
  - inversion H as [| | |? x x' Hx| | | | | | | | | | | | | | | | | | | | | | | | | | |]; subst.
    + exists SNone. repeat split. constructor.
    + destruct (IH P _ _ Hx) as (w & E & Hw & Hs). exists (SSome w). cbn [std_sval ser]. rewrite E. repeat split; [exact Hw|constructor; exact Hs].
  - inversion H as [| | | |? l l' Hl F| | | | | | | | | | | | | | | | | | | | | | | | | |]; subst.
    destruct (writes_all c t l l') as (ws & E & Hw & El & Hs); [eapply Forall2_mono; [|exact F]; exact (IH P)|].
    exists (SSeq (Some (lenN l)) ws). cbn [std_sval ser]. rewrite E. split; [reflexivity|]. split; [|constructor; exact Hs].
    cbn [has_ty]. rewrite Hw. unfold lenN at 2. rewrite El. fold (lenN l). rewrite N.eqb_refl. cbn [andb].
    unfold usize_ok. rewrite Bool.andb_true_r. apply N.ltb_lt, Hl.
  - inversion H as [| | | | |? ? l l' m Hl F Hm| | | | | | | | | | | | | | | | | | | | | | | | |]; subst.
    destruct (writes_all c t l l') as (ws & E & Hw & El & Hs); [eapply Forall2_mono; [|exact F]; exact (IH (proj2 P))|].
    exists (SSeq (Some (lenN l)) ws). cbn [std_sval ser]. rewrite E. split; [reflexivity|]. split; [|econstructor; eassumption].
    cbn [has_ty]. rewrite Hw. unfold lenN at 2. rewrite El. fold (lenN l). rewrite N.eqb_refl. cbn [andb].
    unfold usize_ok. rewrite Bool.andb_true_r. apply N.ltb_lt, Hl.
  - inversion H as [| | | | | |? ? l l' Hl F| | | | | | | | | | | | | | | | | | | | | | | |]; subst.
    destruct (writes_all c t l l') as (ws & E & Hw & El & Hs); [eapply Forall2_mono; [|exact F]; exact (IH P)|].
    exists (STuple ws). cbn [std_sval ser]. rewrite E. split; [reflexivity|]. split; [|constructor; exact Hs].
    cbn [has_ty]. rewrite <- El. clear -Hw. induction ws as [|w ws IH]; [reflexivity|]. cbn [length repeat map forall2b].
    cbn [forallb] in Hw. apply Bool.andb_true_iff in Hw as [H1 H2]. rewrite H1. apply IH, H2.
  - inversion H as [| | | | | | |? l l' A| | | | | | | | | | | | | | | | | | | | | | |]; subst. clear H.
    assert (Each : Forall (fun t => forall v v', comes_back c t v v' -> writes_as c t v v') ts).
    { clear -IH P. induction IH as [|t ts Ht IH IH2]; [constructor|]. cbn [fold_right] in P. destruct P as [P1 P2]. constructor; [exact (Ht P1)|exact (IH2 P2)]. }
    destruct (writes_each c ts Each _ _ A) as (ws & E & Hw & Hs).
    exists (STuple ws). cbn [std_sval ser]. rewrite E. repeat split; [exact Hw|constructor; exact Hs].
  - inversion H as [| | | | | | | |? a b a' b' Ha Hb| | | | | | | | | | | | | | | | | | | | | |]; subst.
    destruct (IH P _ _ Ha) as (wa & Ea & Ta & Sa). destruct (IH P _ _ Hb) as (wb & Eb & Tb & Sb).
    exists (STuple [wa; wb]). cbn [std_sval ser map snd has_ty forall2b]. rewrite Ea, Eb, Ta, Tb. repeat split. constructor; assumption.
  - inversion H as [| | | | | | | | |? a b x a' b' Ha Hb| | | | | | | | | | | | | | | | | | | | |]; subst.
    destruct (IH P _ _ Ha) as (wa & Ea & Ta & Sa). destruct (IH P _ _ Hb) as (wb & Eb & Tb & Sb).
    exists (STuple [wa; wb]). cbn [std_sval ser map snd has_ty forall2b]. rewrite Ea, Eb, Ta, Tb. repeat split. constructor; assumption.
  - inversion H as [| | | | | | | | | | |? x x' Hx|? x x' Hx| | | | | | | | | | | | | | | | | |]; subst.
    + exists (SUnitVariant 0). repeat split. constructor.
    + destruct (IH P _ _ Hx) as (w & E & Hw & Hs). exists (SNewtypeVariant 1 w). cbn [std_sval ser]. rewrite E. repeat split; [exact Hw|constructor; exact Hs].
    + destruct (IH P _ _ Hx) as (w & E & Hw & Hs). exists (SNewtypeVariant 2 w). cbn [std_sval ser]. rewrite E. repeat split; [exact Hw|constructor; exact Hs].
  - destruct P as [P Pe]. inversion H as [| | | | | | | | | | | | |? ? x x' Hx|? ? x x' Hx| | | | | | | | | | | | | | | |]; subst.
    + destruct (IH P _ _ Hx) as (w & E & Hw & Hs). exists (SNewtypeVariant 0 w). cbn [std_sval ser]. rewrite E. repeat split; [exact Hw|constructor; exact Hs].
    + destruct (IHe Pe _ _ Hx) as (w & E & Hw & Hs). exists (SNewtypeVariant 1 w). cbn [std_sval ser]. rewrite E. repeat split; [exact Hw|constructor; exact Hs].
  - inversion H as [| | | | | | | | | | | | | | |secs nanos H1 H2| | | | | | | | | | | | | | |]; subst.
    exists (STuple [SU64 secs; SU32 nanos]). split; [reflexivity|]. split; [|constructor; auto].
    cbn [has_ty duration_wire map forall2b]. assert (10 ^ 9 < 2 ^ 32) by reflexivity.
    rewrite (proj2 (N.ltb_lt _ _) H1), (proj2 (N.ltb_lt nanos (2 ^ 32))) by lia. reflexivity.
  - inversion H as [| | | | | | | | | | | | | | | |secs nanos H1 H2| | | | | | | | | | | | | |]; subst.
    exists (STuple [SU64 (Z.to_N secs); SU32 nanos]). cbn [std_sval]. rewrite (proj2 (Z.ltb_ge secs 0)) by lia. split; [reflexivity|]. split.
    + cbn [has_ty duration_wire map forall2b]. assert (10 ^ 9 < 2 ^ 32) by reflexivity.
      rewrite (proj2 (N.ltb_lt nanos (2 ^ 32))) by lia.
      assert (E : (Z.to_N secs <? 2 ^ 64) = true).
      { apply N.ltb_lt. change (2 ^ 64) with (Z.to_N (2 ^ 64)). apply Z2N.inj_lt; lia. }
      rewrite E. reflexivity.
    + replace secs with (Z.of_N (Z.to_N secs)) at 2 by lia. constructor; [exact H2| |reflexivity].
      change (2 ^ 63) with (Z.to_N (2 ^ 63)). apply Z2N.inj_lt; lia.
  - inversion H as [| | | | | | | | | | | | | | | | |bs B Hn Hl| | | | | | | | | | | | |]; subst.
    exists (SBytes bs). split; [reflexivity|]. split; [|constructor; assumption].
    cbn [has_ty]. unfold buf_ok, usize_ok. rewrite (proj2 (bytes_okb_ok bs) B). apply N.ltb_lt, Hl.
  - inversion H as [| | | | | | | | | | | | | | | | | |bs B Hl| | | | | | | | | | | |]; subst.
    exists (SNewtypeVariant 0 (SSeq (Some (lenN bs)) (map SU8 bs))). split; [reflexivity|]. split; [|constructor].
    cbn -[N.pow N.ltb N.eqb]. rewrite lenN_map, !N.eqb_refl. unfold usize_ok. rewrite (proj2 (N.ltb_lt _ _) Hl). cbn [andb].
    clear -B. induction B as [|x l Hx B IH]; [reflexivity|]. cbn [map forallb]. rewrite IH, Bool.andb_true_r. apply N.ltb_lt, Hx.
  - inversion H as [| | | | | | | | | | | | | | | | | | |bs Hs| | | | | | | | | | |]; subst.
    exists (SStr bs). cbn [std_sval has_ty]. rewrite Hs. unfold str_ok in Hs. apply Bool.andb_true_iff in Hs as [-> _].
    repeat split. constructor.
  - inversion H; subst. eexists. split; [reflexivity|]. split; [apply octets_ty; assumption|constructor].
  - inversion H; subst. eexists. split; [reflexivity|]. split; [apply octets_ty; assumption|constructor].
  - inversion H as [| | | | | | | | | | | | | | | | | | | | | |? ? Hx|? ? Hx| | | | | | |]; subst; inversion Hx as [| | | | | | | | | | | | | | | | | | | |l B Hl|l B Hl| | | | | | | | |]; subst.
    + exists (SNewtypeVariant 0 (STuple (map SU8 l))). split; [reflexivity|]. split; [|repeat constructor].
      exact (octets_ty c 4 l B Hl).
    + exists (SNewtypeVariant 1 (STuple (map SU8 l))). split; [reflexivity|]. split; [|repeat constructor].
      exact (octets_ty c 16 l B Hl).
  - inversion H as [| | | | | | | | | | | | | | | | | | | | | | | |l port B Hl Hp| | | | | |]; subst.
    exists (STuple [STuple (map SU8 l); SU16 port]). split; [reflexivity|]. split; [|constructor].
    change (has_ty c ip4_wire (STuple (map SU8 l)) && ((port <? 2 ^ 16) && true) = true). unfold ip4_wire.
    rewrite (octets_ty c 4 l B Hl), (proj2 (N.ltb_lt _ _) Hp). reflexivity.
  - inversion H as [| | | | | | | | | | | | | | | | | | | | | | | | |l port fl sc B Hl Hp| | | | |]; subst.
    exists (STuple [STuple (map SU8 l); SU16 port]). split; [reflexivity|]. split; [|constructor].
    change (has_ty c ip6_wire (STuple (map SU8 l)) && ((port <? 2 ^ 16) && true) = true). unfold ip6_wire.
    rewrite (octets_ty c 16 l B Hl), (proj2 (N.ltb_lt _ _) Hp). reflexivity.
  - inversion H as [| | | | | | | | | | | | | | | | | | | | | | | | | |? ? Hx|? ? Hx | | |]; subst; inversion Hx as [| | | | | | | | | | | | | | | | | | | | | | | |l port B Hl Hp|l port fl sc B Hl Hp| | | | |]; subst.
    + exists (SNewtypeVariant 0 (STuple [STuple (map SU8 l); SU16 port])). split; [reflexivity|]. split; [|repeat constructor].
      change (has_ty c ip4_wire (STuple (map SU8 l)) && ((port <? 2 ^ 16) && true) = true). unfold ip4_wire.
      rewrite (octets_ty c 4 l B Hl), (proj2 (N.ltb_lt _ _) Hp). reflexivity.
    + exists (SNewtypeVariant 1 (STuple [STuple (map SU8 l); SU16 port])). split; [reflexivity|]. split; [|repeat constructor].
      change (has_ty c ip6_wire (STuple (map SU8 l)) && ((port <? 2 ^ 16) && true) = true). unfold ip6_wire.
      rewrite (octets_ty c 16 l B Hl), (proj2 (N.ltb_lt _ _) Hp). reflexivity.
  - inversion H as [| | | | | | | | | | | | | | | | | | | | | | | | | | | |? m m' Hl Hs Hk Hn F| |]; subst.
    destruct (writes_all c t (map snd m) (map snd m')) as (ws & E & Hw & El & St); [eapply Forall2_mono; [|exact F]; exact (IH P)|].
    rewrite map_length in El. set (mw := combine (map fst m) ws).
    assert (K : map fst mw = map fst m) by (apply map_fst_combine; rewrite map_length; congruence).
    assert (V : map snd mw = ws) by (apply map_snd_combine; rewrite map_length; congruence).
    assert (Lm : lenN mw = lenN m) by (unfold lenN; rewrite <- (map_length fst mw), K, map_length; reflexivity).
    exists (SMap (Some (lenN m)) (map (fun kv => (SStr (fst kv), snd kv)) mw)). split; [|split].
    + cbn [std_sval ser]. f_equal. f_equal. rewrite !map_map. cbn [fst snd ser_key].
      clearbody mw. subst ws. rewrite !map_map in E. clear -E K. revert mw E K. induction m as [|[k v] m IH]; intros [|[k' w] mw] E K; try discriminate; [reflexivity|].
      cbn [map fst snd] in *. injection K as -> K. injection E as E1 E. rewrite E1. f_equal. apply IH; assumption.
    + cbn [has_ty]. rewrite (strkeys_of (fun x => x)), lenN_map, Lm, N.eqb_refl. unfold usize_ok. rewrite (proj2 (N.ltb_lt _ _) Hl). cbn [andb].
      assert (Em : map (fun kv : list N * sval => (fst kv, snd kv)) mw = mw) by (clear; induction mw as [|[k w] mw IH]; [reflexivity|cbn [map fst snd]; f_equal; exact IH]).
      rewrite Em, (sorted_same mw m K), Hs. cbn [andb]. apply forallb_forall. intros [k w] Hin. cbn [fst snd]. apply andb_true_intro. split.
      * apply (in_map fst) in Hin. rewrite K in Hin. apply in_map_iff in Hin as (kv & Ek & Hin). rewrite Forall_forall in Hk. specialize (Hk kv Hin). rewrite Ek in Hk. exact Hk.
      * apply (in_map snd) in Hin. rewrite V in Hin. rewrite forallb_forall in Hw. exact (Hw w Hin).
    + constructor.
      * rewrite map_map. cbn [fst]. rewrite <- (map_map fst SStr mw), <- (map_map fst SStr m'), K, Hn. reflexivity.
      * rewrite map_map. change (Forall2 (stands t) (map snd mw) (map snd m')). rewrite V. exact St.
  - destruct P as [_ P]. inversion H as [| | | | | | | | | | | | | | | | | | | | | | | | | | | | |? l l' Hn Hn' A|]; subst.
    assert (Each : Forall (fun t => forall v v', comes_back c t v v' -> writes_as c t v v') (map snd fs)).
    { clear -IH P. induction IH as [|t ts Ht IH IH2]; [constructor|]. cbn [fold_right map] in *. destruct P as [P1 P2]. constructor; [exact (Ht P1)|exact (IH2 P2)]. }
    destruct (writes_each c (map snd fs) Each _ _ A) as (ws & E & Hw & St).
    destruct (all_stand_length _ _ _ St) as [L1 L2]. rewrite !map_length in *.
    assert (K : map fst (combine (map fst fs) ws) = map fst fs) by (apply map_fst_combine; rewrite map_length; congruence).
    assert (V : map snd (combine (map fst fs) ws) = ws) by (apply map_snd_combine; rewrite map_length; congruence).
    exists (SStruct (combine (map fst fs) ws)). split; [|split].
    + cbn [std_sval ser]. f_equal. rewrite map_map. cbn [snd]. rewrite <- (map_map snd ser (combine _ _)), V, <- E, !map_map. reflexivity.
    + cbn [has_ty]. rewrite map_map. cbn [fst snd]. clear -Hw L1. revert ws Hw L1. induction fs as [|[n t] fs IH]; intros [|w ws] Hw L1; try discriminate; [reflexivity|].
      cbn [map combine forall2b fst snd] in *. apply andb_prop in Hw as [H1 H2]. rewrite String.eqb_refl, H1. apply IH; [exact H2|]. injection L1; auto.
    + constructor; [exact K|exact Hn'|rewrite V; exact St].
  - inversion H as [| | | | | | | | | | | | | | | | | | | | | | | | | | | | | |? k i t x x' E Hx]; subst. pose proof E as E0. rewrite <- pickN_nth in E.
    destruct (proper_variant _ _ _ _ P E) as [Hp Pt]. pose proof (pickN_some _ _ _ E) as [Hin _].
    rewrite Forall_forall in IH. destruct (IH (k, t) Hin Pt x x' Hx) as (w & Es & Hw & Hs). cbn [snd] in Hw, Hs.
    assert (Hu : k = KUnit -> w = SUnit) by (intros ->; rewrite Hp in Hw; destruct w; (reflexivity || discriminate)).
    exists (variant_sval k i w). split; [|split; [|apply (variant_stands vs k i t w x'); assumption]].
    + cbn [std_sval]. destruct k; cbn [payload] in Hp.
      * reflexivity.
      * cbn [variant_sval ser]. rewrite Es. reflexivity.
      * destruct Hp as [ts ->]. inversion Hs; subst. inversion Hx; subst. cbn [std_sval variant_sval ser] in *. rewrite Es. reflexivity.
      * destruct Hp as [fs ->]. inversion Hs; subst. inversion Hx; subst. cbn [std_sval variant_sval ser] in *. rewrite Es. reflexivity.
    + destruct k; cbn [payload] in Hp; cbn [variant_sval has_ty].
      * rewrite !pickN_map, E. cbn [option_map fst snd]. rewrite <- (Hu eq_refl). exact Hw.
      * rewrite !pickN_map, E. exact Hw.
      * destruct Hp as [ts ->]. inversion Hs; subst. cbn [variant_sval has_ty]. rewrite !pickN_map, E. exact Hw.
      * destruct Hp as [fs ->]. inversion Hs; subst. cbn [variant_sval has_ty]. rewrite !pickN_map, E. exact Hw.
Qed.

(** ** What a wire value stands for is read from its bytes, and from no proper prefix of them *)
Lemma parses_std_enum c alts i p u v : i < 16384 -> pickN alts i = Some p ->
  parses c ERead p u v -> parses c ERead (std_enum alts) (enc_u32 i ++ u) v.
Proof.
  intros Hi Ha Hp; unfold std_enum. rewrite idx_agree by exact Hi.
  eapply parses_bind; [apply parses_u16; eapply N.lt_trans; [exact Hi|reflexivity]|].
  rewrite Ha; exact Hp.
Qed.
Lemma parses_user_enum c alts i alt u v : i < 16384 -> pickN alts i = Some alt ->
  parses c ERead (alt i) u v -> parses c ERead (user_enum alts) (enc_u32 i ++ u) v.
Proof.
  intros Hi Ha Hp; unfold user_enum. rewrite idx_agree by exact Hi.
  eapply parses_bind; [apply parses_u16; eapply N.lt_trans; [exact Hi|reflexivity]|].
  rewrite Ha; exact Hp.
Qed.
Lemma octets_count c n l : has_ty c (DTuple (repeat DU8 n)) (STuple (map SU8 l)) = true -> length l = n.
Proof.
  cbn [has_ty]. revert l; induction n as [|n IH]; intros [|x l]; cbn [repeat map forall2b length]; try discriminate; [reflexivity|].
  intros H. apply andb_prop in H as [_ H]. f_equal. auto.
Qed.
Lemma octets_bytes l : wbytes (ser (STuple (map SU8 l))) = l /\ wresult (ser (STuple (map SU8 l))) = WeOk.
Proof.
  cbn [ser]. rewrite map_map. cbn [ser]. destruct (wconcat_ok (fun n => wr [n]) l) as [H1 H2]; [apply Forall_forall; intros; reflexivity|].
  rewrite H1, H2. cbn [wbytes wr app]. split; [apply concat_singletons|reflexivity].
Qed.
Lemma parses_octets c l : parses c ERead (octets_de (length l)) l l.
Proof.
  unfold octets_de. induction l as [|x l IH]; cbn [length repeat sequence]; [apply parses_ret|].
  apply (parses_bind c ERead de_u8 _ [x] l x); [apply parses_byte|]. eapply parses_bind_ret; [exact IH|reflexivity].
Qed.
Lemma not_zero w : ~ zero w -> is_zero w = false.
Proof. rewrite zero_iff. destruct (is_zero w); [intros H; destruct (H eq_refl)|reflexivity]. Qed.
Lemma two_len {A B} {R : A -> B -> Prop} {l l'} : Forall2 R l l' -> length l = length l'.
Proof. induction 1; cbn [length]; congruence. Qed.
Definition read_back (c : cfg) (t : stdty) (w : sval) (v : stdval) : Prop :=
  wresult (ser w) = WeOk /\ parses c ERead (std_de c t) (wbytes (ser w)) v.
Lemma read_back_all c ts ws vs : Forall2 (fun tw v => read_back c (fst tw) (snd tw) v) (combine ts ws) vs -> length ts = length ws ->
  wresult (wconcat (map ser ws)) = WeOk /\ parses c ERead (sequence (map (std_de c) ts)) (wbytes (wconcat (map ser ws))) vs.
Proof.
  intros F L. assert (H : Forall (fun w => wresult (ser w) = WeOk) ws /\ parses c ERead (sequence (map (std_de c) ts)) (concat (map (fun w => wbytes (ser w)) ws)) vs).
  { revert ws vs L F. induction ts as [|t ts IH]; intros [|w ws] vs L F; try discriminate; cbn [combine] in F; inversion F as [|? v ? vs' [H1 H2] F']; subst.
    - split; [constructor|apply parses_ret].
    - cbn [fst snd] in *. injection L as L. destruct (IH ws vs' L F') as [IH1 IH2]. split; [constructor; assumption|].
      cbn [map sequence concat]. eapply parses_bind; [exact H2|]. eapply parses_bind_ret; [exact IH2|reflexivity]. }
  destruct H as [H1 H2]. destruct (wconcat_ok ser ws H1) as [Hw Hb]. rewrite Hw, Hb. auto.
Qed.
Lemma read_back_same c t ws vs : Forall2 (read_back c t) ws vs ->
  Forall (fun w => wresult (ser w) = WeOk) ws /\ Forall2 (parses c ERead (std_de c t)) (map (fun w => wbytes (ser w)) ws) vs.
Proof. induction 1 as [|w v ws vs [H1 H2] F [IH1 IH2]]; split; constructor; assumption. Qed.

Lemma parses_map_with {A} c (p : prog A) (enc : list (list N * list N)) m : wf_cfg c -> lenN m < 2 ^ usize_bits c ->
  map fst enc = map fst m -> Forall (fun kv => str_ok c (fst kv) = true) m -> Forall2 (parses c ERead p) (map snd enc) (map snd m) ->
  parses c ERead (de_map c p) (enc_u64 (lenN m) ++ concat (map (fun kv => enc_str (fst kv) ++ snd kv) enc))
    (fold_left (fun acc kv => map_insert (fst kv) (snd kv) acc) m []).
Proof.
  intros Hc Hl Hk Hz F. set (l := combine enc m).
  assert (L : length enc = length m) by (rewrite <- (map_length fst enc), Hk, map_length; reflexivity).
  assert (E1 : map fst l = enc) by (apply map_fst_combine, L). assert (E2 : map snd l = m) by (apply map_snd_combine, L).
  unfold de_map. eapply parses_bind; [apply parses_u64, (lt_usize_64 c); assumption|]. rewrite as_usize_id by assumption. unfold de_map_n.
  assert (Hll : lenN m = lenN l) by (rewrite <- E2; unfold lenN; rewrite map_length; reflexivity). rewrite Hll.
  assert (El : fold_left (fun acc kv => map_insert (fst kv) (snd kv) acc) m [] = fold_left (fun acc x => map_insert (fst (snd x)) (snd (snd x)) acc) l []).
  { rewrite <- E2 at 1. generalize (@nil (list N * A)). clear. induction l as [|x l IH]; intros acc; [reflexivity|]. cbn [map fold_left]. apply IH. }
  assert (Ec : map (fun kv => enc_str (fst kv) ++ snd kv) enc = map (fun x => enc_str (fst (fst x)) ++ snd (fst x)) l).
  { rewrite <- E1 at 1. rewrite map_map. reflexivity. }
  rewrite El, Ec. apply (parses_foldN c ERead _ (fun x => enc_str (fst (fst x)) ++ snd (fst x)) (fun acc x => map_insert (fst (snd x)) (snd (snd x)) acc)).
  clear El Ec Hll Hl. revert E1 E2. generalize l. clear l. intros l E1 E2. subst enc m. rewrite !map_map in Hk. rewrite !map_map in F.
  induction l as [|[[k e] [k' v]] l IH]; [constructor|]. cbn [map fst snd length] in *. injection Hk as -> Hk. injection L as L.
  inversion Hz as [|? ? Hz1 Hz2]; subst. inversion F as [|? ? ? ? F1 F2]; subst. cbn [fst] in Hz1. constructor; [|apply IH; assumption].
  intros s. cbn [fst snd]. apply andb_prop in Hz1 as [Hk1 Hk2].
  eapply parses_bind; [apply parses_string; [exact Hc|exact Hk1|apply N.ltb_lt, Hk2]|]. eapply parses_bind_ret; [exact F1|reflexivity].
Qed.
Lemma sock_wire c n l port : has_ty c (DTuple [DTuple (repeat DU8 n); DU16]) (STuple [STuple (map SU8 l); SU16 port]) = true ->
  length l = n /\ port < 2 ^ 16 /\ wbytes (ser (STuple [STuple (map SU8 l); SU16 port])) = l ++ enc_u16 port.
Proof.
  intros H. change (has_ty c (DTuple (repeat DU8 n)) (STuple (map SU8 l)) && ((port <? 2 ^ 16) && true) = true) in H. apply andb_prop in H as [H1 H2].
  apply octets_count in H1. apply andb_prop in H2 as [H2 _]. split; [exact H1|]. split; [apply N.ltb_lt, H2|].
  destruct (octets_bytes l) as [Eb Er]. destruct (wconcat_ok ser [STuple (map SU8 l); SU16 port]) as [_ E]; [repeat constructor; exact Er|].
  change (wbytes (wconcat (map ser [STuple (map SU8 l); SU16 port])) = l ++ enc_u16 port). rewrite E. cbn [map concat]. rewrite Eb, app_nil_r. f_equal.
  cbn [ser ser_u16 wr wbytes]. rewrite app_nil_r. reflexivity.
Qed.

Lemma newtype_bytes i w : wbytes (ser (SNewtypeVariant i w)) = enc_u32 i ++ wbytes (ser w).
Proof. cbn [ser]. unfold ser_u32. apply wbytes_seq_wr. Qed.

Section ReadBack.
  Variable c : cfg.
  Hypothesis Hc : wf_cfg c.
  Hypothesis Hh : 4096 <= heap_limit c.
  Lemma read_back_intro t w v : wf_dty (wire t) = true -> has_ty c (wire t) w = true ->
    parses c ERead (std_de c t) (wbytes (ser w)) v -> read_back c t w v.
  Proof. intros Hw Ht H. split; [apply (roundtrip c (wire t) w Hc Hh Hw Ht)|exact H]. Qed.
  Lemma duration_read_back a b s n : s < 2 ^ 64 -> n < 2 ^ 32 -> s + n / NANOS_PER_SEC < 2 ^ 64 -> String.eqb a b = false ->
    parses c ERead (duration_de a b) (wbytes (ser (STuple [SU64 s; SU32 n]))) (s + n / NANOS_PER_SEC, n mod NANOS_PER_SEC).
  Proof.
    intros Hs Hn Hsum Hab. unfold duration_de.
    replace (wbytes (ser (STuple [SU64 s; SU32 n]))) with (concat [enc_u64 s; enc_u32 n]) by reflexivity.
    eapply parses_bind_ret.
    - apply (parses_struct c [(a, de_u64); (b, de_u32)] [None; None] [enc_u64 s; enc_u32 n] [s; n]); [|reflexivity|reflexivity|].
      + apply String.eqb_neq in Hab. cbn [map fst]. constructor; [intros [E|[]]; congruence|constructor; [intros []|constructor]].
      + cbn [map snd combine]. constructor; [apply parses_u64, Hs|]. constructor; [apply parses_u32, Hn|constructor].
    - cbv beta iota. rewrite (proj2 (N.ltb_lt _ _) Hsum). reflexivity.
  Qed.
  Lemma range_read_back p miss mk ua ub a b : parses c ERead p ua a -> parses c ERead p ub b ->
    parses c ERead (range_de p miss mk) (concat [ua; ub]) (mk a b).
  Proof.
    intros Ha Hb. unfold range_de. eapply parses_bind_ret.
    - apply (parses_struct c [("start"%string, p); ("end"%string, p)] [miss; miss] [ua; ub] [a; b]); [|reflexivity|reflexivity|].
      + constructor; [intros [E|[]]; discriminate|constructor; [intros []|constructor]].
      + cbn [map snd combine]. constructor; [exact Ha|]. constructor; [exact Hb|constructor].
    - reflexivity.
  Qed.
  Lemma vec_read_back t n ws vs : (forall w v, has_ty c (wire t) w = true -> stands t w v -> read_back c t w v) ->
    has_ty c (DVec (wire t)) (SSeq n ws) = true -> Forall2 (stands t) ws vs ->
    parses c ERead (de_vec c (std_de c t)) (wbytes (ser (SSeq n ws))) vs.
  Proof.
    intros IH Ht F. cbn [has_ty] in Ht. destruct n as [n|]; [|discriminate].
    apply andb_prop in Ht as [Ht HF]. apply andb_prop in Ht as [Hn Hu]. apply N.eqb_eq in Hn; subst n.
    assert (G : Forall2 (read_back c t) ws vs).
    { clear Hu. revert HF. induction F as [|w v ws vs Hs F IHF]; intros HF; [constructor|]. cbn [forallb] in HF. apply andb_prop in HF as [H1 H2]. constructor; auto. }
    pose proof (two_len F) as L. apply read_back_same in G as [G1 G2].
    destruct (wconcat_ok ser ws G1) as [_ Hb]. cbn [ser ser_len]. unfold ser_u64. rewrite wbytes_seq_wr, Hb.
    replace (lenN ws) with (lenN vs) in * by (unfold lenN; congruence). apply parses_vec; [exact Hc|exact G2|apply N.ltb_lt, Hu].
  Qed.
  Lemma each_read_back ts ws vs : Forall (fun t => forall w v, has_ty c (wire t) w = true -> stands t w v -> read_back c t w v) ts ->
    forall2b (map (has_ty c) (map wire ts)) ws = true -> all_stand ts ws vs ->
    parses c ERead (sequence (map (std_de c) ts)) (wbytes (wconcat (map ser ws))) vs.
  Proof.
    intros Each Ht A. apply read_back_all; [|symmetry; apply (all_stand_length _ _ _ A)].
    revert ws vs Ht A. induction Each as [|t ts Ht Each IH]; intros ws vs Hty A; inversion A as [|? w v ? ws' vs' Hs A']; subst; cbn [combine]; [constructor|].
    cbn [map forall2b] in Hty. apply andb_prop in Hty as [H1 H2]. constructor; [apply Ht; assumption|apply IH; assumption].
  Qed.
  Lemma std_read_back t : proper t -> wf_dty (wire t) = true -> forall w v, has_ty c (wire t) w = true -> stands t w v -> read_back c t w v.
  Proof.
    induction t as [d|d|t IH|t IH|cmp t IH|n t IH|ts IH|t IH|t IH|t IH|t e IH IHe| | | | | | | | | | | |t IH|fs IH|vs IH] using stdty_ind2;
      intros P Hw w v Ht H; (apply read_back_intro; [exact Hw|exact Ht|]); cbn [proper] in P; cbn [wire] in Ht; cbn [std_de].
    - inversion H; subst. apply parses_pmap, (roundtrip c d w Hc Hh Hw Ht).
    - inversion H as [|? ? Hz| | | | | | | | | | | | | | | | | | | | | | | | | | | | | | | |]; subst. eapply parses_bind_ret; [apply (roundtrip c d w Hc Hh Hw Ht)|]. cbv beta.
      rewrite (not_zero w Hz). reflexivity.
    - inversion H as [| | |? w' v' Hs| | | | | | | | | | | | | | | | | | | | | | | | | | | | | |]; subst.
      + cbn [ser wr wbytes app]. apply (parses_pmap _ _ (de_option (std_de c t)) (fun o => match o with Some v => XSome v | None => XNone end) [0] None).
        apply (parses_bind_ret c ERead _ _ [0] false); [apply (parses_bool c false)|reflexivity].
      + destruct (IH P Hw w' v' Ht Hs) as [_ Hp]. cbn [ser]. rewrite wbytes_seq_wr.
        apply (parses_pmap _ _ (de_option (std_de c t)) (fun o => match o with Some v => XSome v | None => XNone end) _ (Some v')).
        eapply parses_bind; [apply (parses_bool c true)|]. apply parses_pmap, Hp.
    - inversion H as [| | | |? n ws vs F| | | | | | | | | | | | | | | | | | | | | | | | | | | | |]; subst.
      apply (parses_pmap _ _ (de_vec c (std_de c t)) XSeq). apply vec_read_back; [apply (IH P Hw)|exact Ht|exact F].
    - destruct P as [Hl P]. inversion H as [| | | | |? ? n ws vs m F Hm| | | | | | | | | | | | | | | | | | | | | | | | | | | |]; subst.
      assert (m = set_of cmp vs) as -> by (eapply set_unique; [exact Hl|exact Hm|apply set_of_spec, Hl]).
      apply (parses_pmap _ _ (de_vec c (std_de c t)) (fun l => XSeq (set_of cmp l))). apply vec_read_back; [apply (IH P Hw)|exact Ht|exact F].
    - inversion H as [| | | | | |? ? ws vs F| | | | | | | | | | | | | | | | | | | | | | | | | | |]; subst.
      apply (parses_pmap _ _ _ XTuple). cbn [ser]. cbn [has_ty] in Ht. cbn [wire wf_dty] in Hw.
      replace (repeat (std_de c t) n) with (map (std_de c) (repeat t n)) by (clear; induction n; cbn [repeat map]; congruence).
      replace (repeat (wire t) n) with (map wire (repeat t n)) in * by (clear; induction n; cbn [repeat map]; congruence).
      apply each_read_back; [|exact Ht|].
      + clear -IH P Hw. induction n as [|n IHn]; [constructor|]. cbn [repeat map forallb] in *. apply andb_prop in Hw as [H1 H2]. constructor; [apply (IH P H1)|apply IHn, H2].
      + clear -Ht F. revert n Ht. induction F as [|w v ws vs Hs F IHF]; intros [|n] Ht; try discriminate; cbn [repeat map forall2b] in *; constructor; [exact Hs|].
        apply andb_prop in Ht as [_ Ht]. apply IHF, Ht.
    - inversion H as [| | | | | | |? ws vs A| | | | | | | | | | | | | | | | | | | | | | | | | |]; subst.
      apply (parses_pmap _ _ _ XTuple). cbn [ser]. apply each_read_back; [|exact Ht|exact A].
      cbn [wire wf_dty] in Hw. clear -IH P Hw. induction IH as [|t ts IHt IH IH2]; [constructor|]. cbn [fold_right map forallb] in *.
      apply andb_prop in Hw as [H1 H2]. destruct P as [P1 P2]. constructor; auto.
    - inversion H as [| | | | | | | |? wa wb a b Ha Hb| | | | | | | | | | | | | | | | | | | | | | | | |]; subst.
      cbn [wire wf_dty forallb] in Hw. apply andb_prop in Hw as [Hw _]. cbn [has_ty map forall2b] in Ht. apply andb_prop in Ht as [Ta Tb]. apply andb_prop in Tb as [Tb _].
      destruct (IH P Hw _ _ Ta Ha) as [Ra Pa]. destruct (IH P Hw _ _ Tb Hb) as [Rb Pb].
      destruct (wconcat_ok ser [wa; wb]) as [_ E]; [repeat constructor; assumption|]. cbn [ser]. rewrite E. apply (range_read_back (std_de c t) _ XRange); assumption.
    - inversion H as [| | | | | | | | |? wa wb a b Ha Hb| | | | | | | | | | | | | | | | | | | | | | | |]; subst.
      cbn [wire wf_dty forallb] in Hw. apply andb_prop in Hw as [Hw _]. cbn [has_ty map forall2b] in Ht. apply andb_prop in Ht as [Ta Tb]. apply andb_prop in Tb as [Tb _].
      destruct (IH P Hw _ _ Ta Ha) as [Ra Pa]. destruct (IH P Hw _ _ Tb Hb) as [Rb Pb].
      destruct (wconcat_ok ser [wa; wb]) as [_ E]; [repeat constructor; assumption|]. cbn [ser]. rewrite E.
      apply (range_read_back (std_de c t) _ (fun a b => XRangeInclusive a b false)); assumption.
    - cbn [wire wf_dty forallb fst snd payload_shape andb] in Hw. apply andb_prop in Hw as [_ Hw]. apply andb_prop in Hw as [Hw _].
      inversion H as [| | | | | | | | | | |? w0 v0 Hs|? w0 v0 Hs| | | | | | | | | | | | | | | | | | | | |]; subst.
      + change (wbytes (ser (SUnitVariant 0))) with (enc_u32 0 ++ []). eapply parses_std_enum; [reflexivity|reflexivity|apply parses_ret].
      + destruct (IH P Hw w0 v0 Ht Hs) as [_ Hp]. cbn [ser]. unfold ser_u32. rewrite wbytes_seq_wr. eapply parses_std_enum; [reflexivity|reflexivity|apply parses_pmap, Hp].
      + destruct (IH P Hw w0 v0 Ht Hs) as [_ Hp]. cbn [ser]. unfold ser_u32. rewrite wbytes_seq_wr. eapply parses_std_enum; [reflexivity|reflexivity|apply parses_pmap, Hp].
    - cbn [wire wf_dty forallb fst snd payload_shape andb] in Hw. apply andb_prop in Hw as [_ Hw]. apply andb_prop in Hw as [Hw He]. apply andb_prop in He as [He _].
      destruct P as [P Pe]. inversion H as [| | | | | | | | | | | | |? ? w0 v0 Hs|? ? w0 v0 Hs| | | | | | | | | | | | | | | | | | |]; subst.
      + destruct (IH P Hw w0 v0 Ht Hs) as [_ Hp]. cbn [ser]. unfold ser_u32. rewrite wbytes_seq_wr. eapply parses_std_enum; [reflexivity|reflexivity|apply parses_pmap, Hp].
      + destruct (IHe Pe He w0 v0 Ht Hs) as [_ Hp]. cbn [ser]. unfold ser_u32. rewrite wbytes_seq_wr. eapply parses_std_enum; [reflexivity|reflexivity|apply parses_pmap, Hp].
    - inversion H as [| | | | | | | | | | | | | | |s n secs nanos H1 H2 H3| | | | | | | | | | | | | | | | | |]; subst.
      destruct (carry _ _ _ _ H1 H3) as [-> ->]. unfold duration_wire in Ht. cbn [has_ty map forall2b] in Ht. apply andb_prop in Ht as [T1 T2]. apply andb_prop in T2 as [T2 _].
      apply (parses_pmap _ _ _ (fun p => XDuration (fst p) (snd p)) _ (_, _)), duration_read_back; [apply N.ltb_lt, T1|apply N.ltb_lt, T2|exact H2|reflexivity].
    - inversion H as [| | | | | | | | | | | | | | | |s n secs nanos H1 H2 H3| | | | | | | | | | | | | | | | |]; subst.
      destruct (carry _ _ _ _ H1 H3) as [-> ->]. unfold duration_wire in Ht. cbn [has_ty map forall2b] in Ht. apply andb_prop in Ht as [T1 T2]. apply andb_prop in T2 as [T2 _].
      eapply parses_bind_ret; [apply duration_read_back; [apply N.ltb_lt, T1|apply N.ltb_lt, T2|eapply N.lt_trans; [exact H2|reflexivity]|reflexivity]|].
      cbn [fst snd]. rewrite (proj2 (N.ltb_lt _ _) H2). reflexivity.
    - inversion H as [| | | | | | | | | | | | | | | | |bs Hn| | | | | | | | | | | | | | | |]; subst.
      cbn [has_ty] in Ht. unfold buf_ok in Ht. apply andb_prop in Ht as [T1 T2]. cbn [ser ser_bytes ser_u64 wseq wr wbytes]; rewrite app_nil_r.
      eapply parses_bind_ret; [apply parses_byte_buf; [assumption|assumption|apply N.ltb_lt, T2]|]. cbv beta.
      replace (existsb (N.eqb 0) bs) with false; [reflexivity|]. symmetry. apply Bool.not_true_iff_false. intros E. apply existsb_exists in E as (x & Hx & E).
      apply N.eqb_eq in E as <-. exact (Hn Hx).
    - inversion H as [| | | | | | | | | | | | | | | | | |n bs| | | | | | | | | | | | | | |]; subst. cbn -[N.pow N.ltb N.eqb] in Ht.
      destruct n as [n|]; [|discriminate]. apply andb_prop in Ht as [Ht _]. apply andb_prop in Ht as [T1 T2]. apply N.eqb_eq in T1. rewrite lenN_map in T1. subst n.
      change (SSeq (Some (lenN bs)) (map SU8 bs)) with (vec_u8 bs). cbn [ser]. unfold ser_u32. rewrite wbytes_seq_wr.
      destruct (ser_vec_u8 bs) as [_ ->]. eapply parses_std_enum; [reflexivity|reflexivity|]. apply (parses_pmap _ _ _ XOsString), parses_vec_u8; [exact Hc|apply N.ltb_lt, T2].
    - inversion H as [| | | | | | | | | | | | | | | | | | |bs| | | | | | | | | | | | | |]; subst. cbn [has_ty] in Ht. unfold str_ok in Ht. apply andb_prop in Ht as [T1 T2].
      cbn [ser ser_str ser_u64 wseq wr wbytes]; rewrite app_nil_r. apply (parses_pmap _ _ _ XPath), parses_string; [assumption|assumption|apply N.ltb_lt, T2].
    - inversion H; subst. rewrite (proj1 (octets_bytes _)). apply octets_count in Ht. apply (parses_pmap _ _ _ XIp4). rewrite <- Ht at 1. apply parses_octets.
    - inversion H; subst. rewrite (proj1 (octets_bytes _)). apply octets_count in Ht. apply (parses_pmap _ _ _ XIp6). rewrite <- Ht at 1. apply parses_octets.
    - inversion H as [| | | | | | | | | | | | | | | | | | | | | |w0 v0 Hs|w0 v0 Hs| | | | | | | | | |]; subst; inversion Hs; subst; rewrite newtype_bytes.
      + rewrite (proj1 (octets_bytes _)). change (has_ty c (DTuple (repeat DU8 4)) (STuple (map SU8 l)) = true) in Ht. apply octets_count in Ht.
        eapply parses_std_enum; [reflexivity|reflexivity|]. apply (parses_pmap _ _ _ XV4), (parses_pmap _ _ _ XIp4). rewrite <- Ht at 1. apply parses_octets.
      + rewrite (proj1 (octets_bytes _)). change (has_ty c (DTuple (repeat DU8 16)) (STuple (map SU8 l)) = true) in Ht. apply octets_count in Ht.
        eapply parses_std_enum; [reflexivity|reflexivity|]. apply (parses_pmap _ _ _ XV6), (parses_pmap _ _ _ XIp6). rewrite <- Ht at 1. apply parses_octets.
    - inversion H as [| | | | | | | | | | | | | | | | | | | | | | | |l port| | | | | | | | |]; subst. apply sock_wire in Ht as (L & Hp & ->).
      rewrite <- L at 1. eapply parses_bind; [apply parses_octets|]. eapply parses_bind_ret; [apply parses_u16, Hp|reflexivity].
    - inversion H as [| | | | | | | | | | | | | | | | | | | | | | | | |l port| | | | | | | |]; subst. apply sock_wire in Ht as (L & Hp & ->).
      rewrite <- L at 1. eapply parses_bind; [apply parses_octets|]. eapply parses_bind_ret; [apply parses_u16, Hp|reflexivity].
    - inversion H as [| | | | | | | | | | | | | | | | | | | | | | | | | |w0 v0 Hs|w0 v0 Hs| | | | | |]; subst; inversion Hs; subst.
      + change (has_ty c (DTuple [DTuple (repeat DU8 4); DU16]) (STuple [STuple (map SU8 l); SU16 port]) = true) in Ht.
        apply sock_wire in Ht as (L & Hp & Eb). rewrite newtype_bytes, Eb. eapply parses_std_enum; [reflexivity|reflexivity|].
        rewrite <- L at 1. eapply parses_bind; [apply parses_octets|]. eapply parses_bind_ret; [apply parses_u16, Hp|reflexivity].
      + change (has_ty c (DTuple [DTuple (repeat DU8 16); DU16]) (STuple [STuple (map SU8 l); SU16 port]) = true) in Ht.
        apply sock_wire in Ht as (L & Hp & Eb). rewrite newtype_bytes, Eb. eapply parses_std_enum; [reflexivity|reflexivity|].
        rewrite <- L at 1. eapply parses_bind; [apply parses_octets|]. eapply parses_bind_ret; [apply parses_u16, Hp|reflexivity].
    - inversion H as [| | | | | | | | | | | | | | | | | | | | | | | | | | | |? n ws vs Hk Hv| | | | |]; subst. cbn [has_ty] in Ht. destruct n as [n|]; [|discriminate].
      destruct (strkeys ws) as [m|] eqn:Ek; [|discriminate]. apply strkeys_spec in Ek. subst ws.
      apply andb_prop in Ht as [Ht HF]. apply andb_prop in Ht as [Ht Hs]. apply andb_prop in Ht as [Hn Hu].
      apply N.eqb_eq in Hn; subst n. rewrite lenN_map in *. rewrite !map_map in Hk, Hv. cbn [fst] in Hk. rewrite <- (map_map fst SStr m), key_names in Hk. apply SStr_inj in Hk.
      change (Forall2 (stands t) (map snd m) (map snd vs)) in Hv.
      apply (parses_pmap _ _ (de_map c (std_de c t)) XDict).
      assert (Lm : lenN m = lenN vs) by (unfold lenN; rewrite <- (map_length fst m), Hk, map_length; reflexivity).
      assert (G : exists enc, wbytes (ser (SMap (Some (lenN m)) (map (fun kv => (SStr (fst kv), snd kv)) m))) = enc_u64 (lenN vs) ++ concat (map (fun kv => enc_str (fst kv) ++ snd kv) enc)
                  /\ map fst enc = map fst vs /\ Forall2 (parses c ERead (std_de c t)) (map snd enc) (map snd vs)).
      { exists (map (fun kv => (fst kv, wbytes (ser (snd kv)))) m). rewrite !map_map. cbn [fst snd]. split; [|split; [exact Hk|]].
        - cbn [ser ser_len]. unfold ser_u64. rewrite wbytes_seq_wr, map_map. cbn [fst snd ser_key]. rewrite <- Lm.
          destruct (wconcat_ok (fun kv => wseq (ser_str (fst kv)) (ser (snd kv))) m) as [_ Hb].
          { apply Forall_forall. intros kv Hin. rewrite forallb_forall in HF. specialize (HF kv Hin). apply andb_prop in HF as [_ HF].
            exact (proj1 (roundtrip c (wire t) (snd kv) Hc Hh Hw HF)). }
          rewrite Hb. f_equal. f_equal. apply map_ext. intros kv. unfold ser_str, ser_u64, enc_str. cbn [wseq wr wbytes]. rewrite <- app_assoc. reflexivity.
        - assert (HF' : forallb (has_ty c (wire t)) (map snd m) = true).
          { apply forallb_forall. intros x Hx. apply in_map_iff in Hx as (kv & <- & Hin). rewrite forallb_forall in HF. specialize (HF kv Hin). apply andb_prop in HF as [_ HF]. exact HF. }
          rewrite <- (map_map snd (fun w => wbytes (ser w)) m). clear -IH P Hw Hv HF'. revert HF'.
          induction Hv as [|w v ws vs' Hs F IHF]; intros HF; [constructor|]. cbn [forallb map] in *. apply andb_prop in HF as [H1 H2].
          constructor; [exact (proj2 (IH P Hw w v H1 Hs))|apply IHF, H2]. }
      destruct G as (enc & -> & Ke & Fe).
      assert (Hz : Forall (fun kv => str_ok c (fst kv) = true) vs).
      { apply Forall_forall. intros kv Hin. apply (in_map fst) in Hin. rewrite <- Hk in Hin. apply in_map_iff in Hin as (kw & <- & Hin).
        rewrite forallb_forall in HF. specialize (HF kw Hin). apply andb_prop in HF as [HF _]. exact HF. }
      rewrite (sorted_same m vs Hk) in Hs.
      (* pair each entry with its encoding *)
      pose proof (parses_map_with c (std_de c t) enc vs Hc) as Q. rewrite insert_all_sorted in Q; [|exact Hs|apply Forall_forall; intros; constructor]. rewrite app_nil_l in Q.
      apply Q; [rewrite <- Lm; apply N.ltb_lt, Hu|exact Ke|exact Hz|exact Fe].
    - destruct P as [Hnd P]. inversion H as [| | | | | | | | | | | | | | | | | | | | | | | | | | | | |? ws vs Hn Hn' A| | | |]; subst.
      eapply parses_ext; [intros; apply run_user_struct, Hnd|].
      assert (Ev : vs = combine (map fst fs) (map snd vs)) by (rewrite <- Hn'; clear; induction vs as [|[k v] vs IH]; [reflexivity|cbn [map fst snd combine]; f_equal; exact IH]).
      rewrite Ev. apply (parses_pmap _ _ _ (fun l => XRecord (combine (map fst fs) l))).
      rewrite <- (map_map snd (std_de c) fs). cbn [ser]. rewrite <- (map_map snd ser ws).
      apply each_read_back; [| |exact A].
      + cbn [wire wf_dty] in Hw. apply andb_prop in Hw as [_ Hw]. clear -IH P Hw.
        induction IH as [|[n t] fs Ht IH IH2]; [constructor|]. cbn [fold_right snd map forallb] in *. apply andb_prop in Hw as [H1 H2]. destruct P as [P1 P2].
        constructor; [exact (Ht P1 H1)|exact (IH2 P2 H2)].
      + cbn [has_ty] in Ht. rewrite map_map in Ht. cbn [fst snd] in Ht. clear -Ht. revert ws Ht.
        induction fs as [|[n t] fs IH]; intros [|[k w] ws] Ht; try discriminate; [reflexivity|]. cbn [map forall2b fst snd] in *.
        apply andb_prop in Ht as [H1 H2]. apply andb_prop in H1 as [_ H1]. rewrite H1. apply IH, H2.
    - cbn [wire wf_dty] in Hw. apply andb_prop in Hw as [Hn Hvs]. rewrite lenN_map in Hn. rewrite Forall_forall in IH.
      assert (G : forall i k t w v, nth_error vs (N.to_nat i) = Some (k, t) -> has_ty c (wire t) w = true -> stands t w v ->
        parses c ERead (user_enum (map (fun v i => pmap (XVariant (fst v) i) (std_de c (snd v))) vs)) (enc_u32 i ++ wbytes (ser w)) (XVariant k i v)).
      { intros i k t w0 v0 E Hty Hs. rewrite <- pickN_nth in E. destruct (proper_variant _ _ _ _ P E) as [_ Pt]. pose proof (pickN_some _ _ _ E) as [Hin Hi].
        assert (i < 16384) by (apply N.leb_le in Hn; lia).
        rewrite forallb_forall in Hvs. specialize (Hvs (k, wire t) (in_map (fun v => (fst v, wire (snd v))) _ _ Hin)). cbn [fst snd] in Hvs. apply andb_prop in Hvs as [_ Hvs].
        eapply parses_user_enum; [assumption|rewrite pickN_map, E; reflexivity|]. cbn [fst snd]. apply parses_pmap. exact (proj2 (IH (k, t) Hin Pt Hvs w0 v0 Hty Hs)). }
      inversion H as [| | | | | | | | | | | | | | | | | | | | | | | | | | | | | |? i t v0 E S0|? i t w0 v0 E S0|? i t ws v0 E S0|? i t ws v0 E S0]; subst;
        cbn [has_ty] in Ht; rewrite !pickN_map, pickN_nth, E in Ht; cbn [option_map fst snd] in Ht;
        pose proof (G _ _ _ _ _ E Ht S0) as Q; cbn [ser wbytes] in *; unfold ser_u32.
      + exact Q.
      + rewrite wbytes_seq_wr. exact Q.
      + rewrite wbytes_seq_wr. exact Q.
      + rewrite wbytes_seq_wr. exact Q.
  Qed.
End ReadBack.

Lemma std_roundtrip c t v v' rest : wf_cfg c -> 4096 <= heap_limit c -> proper t -> wf_dty (wire t) = true ->
  comes_back c t v v' ->
  wresult (ser (std_sval v)) = WeOk /\ run c (std_de c t) (wbytes (ser (std_sval v)) ++ rest) = OOk v' rest.
Proof.
  intros Hc Hh P Hw H. destruct (std_written c t P v v' H) as (w & E & Ht & Hs). rewrite E.
  destruct (std_read_back c Hc Hh t P Hw w v' Ht Hs) as [R [Q _]]. split; [exact R|apply Q].
Qed.
Lemma std_truncated c t v v' u x u' : wf_cfg c -> 4096 <= heap_limit c -> proper t -> wf_dty (wire t) = true ->
  comes_back c t v v' -> wbytes (ser (std_sval v)) = u ++ x :: u' -> run c (std_de c t) u = OErr ERead.
Proof.
  intros Hc Hh P Hw H Hu. destruct (std_written c t P v v' H) as (w & E & Ht & Hs). rewrite E in Hu.
  destruct (std_read_back c Hc Hh t P Hw w v' Ht Hs) as [_ [_ Q]]. exact (Q u x u' Hu).
Qed.

Lemma std_written_bytes c t v v' : proper t -> comes_back c t v v' ->
  exists w, has_ty c (wire t) w = true /\ stands t w v' /\
    wbytes (ser (std_sval v)) = wbytes (ser w) /\ wresult (ser (std_sval v)) = wresult (ser w).
Proof. intros P H. destruct (std_written c t P v v' H) as (w & E & Ht & Hs). exists w. rewrite E. auto. Qed.
Lemma unwritable v : (exists secs nanos, v = XTime secs nanos /\ (secs < 0)%Z) \/ (exists bs, v = XPath bs /\ utf8_valid bs = false) ->
  wbytes (ser (std_sval v)) = [] /\ wresult (ser (std_sval v)) = WeErr SEMsg.
Proof.
  intros [(secs & nanos & -> & H)|(bs & -> & H)]; cbn [std_sval].
  - rewrite (proj2 (Z.ltb_lt _ _) H). split; reflexivity.
  - rewrite H. split; reflexivity.
Qed.
