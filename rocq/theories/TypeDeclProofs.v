(** Proofs about the check of type declarations: what it collects and what it decides. *)
From Coq Require Import List Bool Arith Lia Relations Permutation.
From Verif Require Import ListUtil GraphModel GraphSpec GraphProofs SccProofs TopoProofs TypeDeclModel TypeDeclSpec.
Import ListNotations.

Section Induction.
Variable P : ptype -> Prop.
Hypotheses (HN : P PNever) (HU : P PUnit) (HR : P PResolved) (HI : P PInfer) (HP : forall path, P (PPath path))
  (HA : forall path args, Forall P args -> P (PApplied path args))
  (HV : forall alts, Forall (fun a => P (snd a)) alts -> P (PVariant alts))
  (HT : forall ts, Forall P ts -> P (PTuple ts))
  (HC : forall fs, Forall (fun f => P (snd f)) fs -> P (PRecord fs))
  (HY : forall t, P t -> P (PArray t))
  (HF : forall args ret, Forall P args -> P ret -> P (PFunction args ret)).
Fixpoint ptype_deep (t : ptype) : P t :=
  let go := fix go (l : list ptype) : Forall P l :=
    match l with [] => Forall_nil _ | x :: l => Forall_cons x (ptype_deep x) (go l) end in
  let go2 := fix go2 (l : list (nat * ptype)) : Forall (fun a => P (snd a)) l :=
    match l with
    | [] => Forall_nil _
    | x :: l => Forall_cons (P := fun a => P (snd a)) x (match x return P (snd x) with (_, p) => ptype_deep p end) (go2 l)
    end in
  match t with
  | PNever => HN | PUnit => HU | PResolved => HR | PInfer => HI
  | PPath path => HP path
  | PApplied path args => HA path args (go args)
  | PVariant alts => HV alts (go2 alts)
  | PTuple ts => HT ts (go ts)
  | PRecord fs => HC fs (go2 fs)
  | PArray t => HY t (ptype_deep t)
  | PFunction args ret => HF args ret (go args) (ptype_deep ret)
  end.
End Induction.

(** ** Sets and names *)
Lemma has_in : forall x s, has x s = true <-> In x s.
Proof.
  intros x s. unfold has. rewrite existsb_exists. split.
  - intros (y & H & E). apply Nat.eqb_eq in E. subst. auto.
  - intros H. exists x. rewrite Nat.eqb_refl. auto.
Qed.
Lemma has_not : forall x s, has x s = false <-> ~ In x s.
Proof. intros x s. rewrite <- has_in. destruct (has x s); intuition discriminate. Qed.
Lemma insert_in : forall x s y, In y (insert x s) <-> y = x \/ In y s.
Proof.
  intros x s y. unfold insert. change (existsb (Nat.eqb x) s) with (has x s). destruct (has x s) eqn:E.
  - apply has_in in E. split; auto. intros [->|H]; auto.
  - rewrite in_app_iff. simpl. intuition.
Qed.
Lemma extend_in : forall l s y, In y (extend s l) <-> In y s \/ In y l.
Proof.
  induction l as [|x l IH]; intros s y; simpl; [tauto|]. unfold extend in *. simpl. rewrite IH, insert_in. intuition.
Qed.
Lemma refs_in : forall i y, In y (refs i) <-> In y (guarded_refs i) \/ In y (unguarded_refs i).
Proof. intros. apply extend_in. Qed.

Lemma index_from_ok : forall D i name j, index_from i D name = Some j <->
  exists d k, j = i + k /\ nth_error D k = Some d /\ d_name d = name /\
    forall k' e, nth_error D k' = Some e -> d_name e = name -> k' <= k.
Proof.
  induction D as [|d D IH]; intros i name j; cbn [index_from].
  - split; [discriminate|]. intros (d & [|k] & _ & H & _); discriminate H.
  - destruct (index_from (S i) D name) as [j'|] eqn:E.
    + apply IH in E. destruct E as (d' & k & -> & N & F & L). split.
      * intros [= <-]. exists d', (S k). split; [lia|]. split; auto. split; auto.
        intros [|k'] e H1 H2; [lia|]. specialize (L k' e H1 H2). lia.
      * intros (d2 & k2 & -> & N2 & F2 & L2). f_equal.
        assert (S k <= k2) by (apply (L2 (S k) d'); auto).
        destruct k2 as [|k2]; [lia|]. specialize (L k2 d2 N2 F2). lia.
    + destruct (Nat.eqb_spec (d_name d) name) as [e|n].
      * split.
        -- intros [= <-]. exists d, 0. split; [lia|]. split; auto. split; auto.
           intros [|k'] x H1 H2; [lia|]. exfalso.
           assert (NE : index_from (S i) D name <> None).
           { clear - H1 H2. revert i k' H1 H2. induction D as [|y D IH]; intros i [|k'] H1 H2; simpl in *; try discriminate.
             - injection H1 as ->. destruct (index_from (S (S i)) D name); [discriminate|]. apply Nat.eqb_eq in H2. rewrite H2. discriminate.
             - destruct (index_from (S (S i)) D name) eqn:E; [discriminate|]. exfalso. eapply IH; eauto. }
           auto.
        -- intros (d2 & [|k2] & -> & N2 & F2 & L2); [f_equal; lia|]. exfalso. simpl in N2.
           assert (X : index_from (S i) D name <> None).
           { clear - N2 F2. revert i k2 N2 F2. induction D as [|y D IH]; intros i [|k2] H1 H2; simpl in *; try discriminate.
             - injection H1 as ->. destruct (index_from (S (S i)) D name); [discriminate|]. apply Nat.eqb_eq in H2. rewrite H2. discriminate.
             - destruct (index_from (S (S i)) D name) eqn:E2; [discriminate|]. exfalso. eapply IH; eauto. }
           auto.
      * split; [discriminate|]. intros (d2 & [|k2] & -> & N2 & F2 & L2); simpl in N2.
        -- injection N2 as <-. contradiction.
        -- exfalso. assert (X : index_from (S i) D name = Some (S i + k2)).
           { apply IH. exists d2, k2. split; auto. split; auto. split; auto. intros k' e H1 H2.
             specialize (L2 (S k') e H1 H2). lia. }
           congruence.
Qed.
Lemma names_refers : forall D name i, ty_names D name = Some i <-> refers D [name] i.
Proof.
  intros D name i. unfold ty_names. rewrite index_from_ok. unfold refers. split.
  - intros (d & k & -> & N & <- & L). exists d. auto.
  - intros (d & N & E & L). injection E as ->. exists d, i. auto.
Qed.
Lemma refers_lt : forall D path i, refers D path i -> i < length D.
Proof. intros D path i (d & H & _). apply nth_error_Some. congruence. Qed.
Lemma refers_fun : forall D path i j, refers D path i -> refers D path j -> i = j.
Proof.
  intros D path i j (d & H & E & L) (d' & H' & E' & L'). assert (d_name d = d_name d') by congruence.
  specialize (L j d' H'). specialize (L' i d H). lia.
Qed.

Section Collect.
Variable D : list decl.

Lemma note_guarded : forall path g i k, In k (guarded_refs (note_path D path g i)) <-> In k (guarded_refs i) \/ (g = true /\ refers D path k).
Proof.
  intros path g i k. unfold note_path.
  destruct path as [|n [|m path]]; try (split; [auto|]; intros [H|(_ & d & _ & E & _)]; [auto|discriminate]).
  destruct (ty_names D n) as [x|] eqn:E.
  - apply names_refers in E. destruct g; cbn [guarded_refs].
    + rewrite insert_in. split; [intros [->|H]; auto|]. intros [H|(_ & H)]; auto. left. eapply refers_fun; eauto.
    + split; auto. intros [H|(H & _)]; [auto|discriminate].
  - split; auto. intros [H|(_ & H)]; auto. apply names_refers in H. congruence.
Qed.
Lemma note_unguarded : forall path g i k, In k (unguarded_refs (note_path D path g i)) <-> In k (unguarded_refs i) \/ (g = false /\ refers D path k).
Proof.
  intros path g i k. unfold note_path.
  destruct path as [|n [|m path]]; try (split; [auto|]; intros [H|(_ & d & _ & E & _)]; [auto|discriminate]).
  destruct (ty_names D n) as [x|] eqn:E.
  - apply names_refers in E. destruct g; cbn [unguarded_refs].
    + split; auto. intros [H|(H & _)]; [auto|discriminate].
    + rewrite insert_in. split; [intros [->|H]; auto|]. intros [H|(_ & H)]; auto. left. eapply refers_fun; eauto.
  - split; auto. intros [H|(_ & H)]; auto. apply names_refers in H. congruence.
Qed.
Lemma note_payloads : forall path g i, variant_payload_refs (note_path D path g i) = variant_payload_refs i.
Proof. intros [|n [|m path]] g i; simpl; auto. destruct (ty_names D n); auto. destruct g; auto. Qed.

(** What collecting from a type adds. *)
Definition adds (t : ptype) : Prop := forall g i,
  (forall k, In k (guarded_refs (collect_from_type D t g i)) <->
     In k (guarded_refs i) \/ exists u, mention D u t k /\ (g = true \/ u = true)) /\
  (forall k, In k (unguarded_refs (collect_from_type D t g i)) <->
     In k (unguarded_refs i) \/ (g = false /\ mention D false t k)) /\
  (forall s, In s (variant_payload_refs (collect_from_type D t g i)) <->
     In s (variant_payload_refs i) \/
     exists alts c p, outer_sum alts t /\ In (c, p) alts /\ s = refs (collect_from_type D p true no_info)).

Lemma fold_adds : forall (A : Type) (part : A -> ptype) (l : list A), Forall (fun a => adds (part a)) l -> forall g i,
  let r := fold_left (fun i a => collect_from_type D (part a) g i) l i in
  (forall k, In k (guarded_refs r) <-> In k (guarded_refs i) \/ exists a u, In a l /\ mention D u (part a) k /\ (g = true \/ u = true)) /\
  (forall k, In k (unguarded_refs r) <-> In k (unguarded_refs i) \/ (g = false /\ exists a, In a l /\ mention D false (part a) k)) /\
  (forall s, In s (variant_payload_refs r) <->
     In s (variant_payload_refs i) \/
     exists a alts c p, In a l /\ outer_sum alts (part a) /\ In (c, p) alts /\ s = refs (collect_from_type D p true no_info)).
Proof.
  intros A part l F g. induction F as [|a l Ha F IH]; intros i.
  - simpl. split; [|split]; intros k; (split; [auto|]); intros [H|H]; auto.
    + destruct H as (? & ? & [] & _).
    + destruct H as (_ & ? & [] & _).
    + destruct H as (? & ? & ? & ? & [] & _).
  - cbv zeta. cbn [fold_left]. destruct (IH (collect_from_type D (part a) g i)) as (I1 & I2 & I3).
    destruct (Ha g i) as (H1 & H2 & H3). cbv zeta in I1, I2, I3. split; [|split].
    + intros k. rewrite I1, H1. split.
      * intros [[H|(u & H & G)]|(b & u & H & H' & G)]; auto; right; [exists a, u|exists b, u]; simpl; auto.
      * intros [H|(b & u & [<-|H] & H' & G)]; auto; [left; right; eauto|right; eauto].
    + intros k. rewrite I2, H2. split.
      * intros [[H|(G & H)]|(G & b & H & H')]; auto; right; split; auto; [exists a|exists b]; simpl; auto.
      * intros [H|(G & b & [<-|H] & H')]; auto. right. eauto.
    + intros s. rewrite I3, H3. split.
      * intros [[H|(al & c & p & H & G & E)]|(b & al & c & p & H & H' & G & E)]; auto; right; [exists a|exists b]; exists al, c, p; simpl; auto.
      * intros [H|(b & al & c & p & [<-|H] & H' & G & E)]; auto; [left; right|right]; eauto 8.
Qed.

Lemma fold_pair : forall (l : list (nat * ptype)) g i,
  fold_left (fun i field => match field with (_, ty) => collect_from_type D ty g i end) l i
  = fold_left (fun i a => collect_from_type D (snd a) g i) l i.
Proof. induction l as [|(c, p) l IH]; intros; simpl; auto. Qed.

Lemma fold_payloads : forall (alts : list (nat * ptype)) i,
  let r := fold_left (fun i alternative => match alternative with (_, payload) =>
             add_payload (collect_from_type D payload true no_info) i end) alts i in
  (forall k, In k (guarded_refs r) <-> In k (guarded_refs i) \/ exists c p, In (c, p) alts /\ In k (guarded_refs (collect_from_type D p true no_info))) /\
  (forall k, In k (unguarded_refs r) <-> In k (unguarded_refs i) \/ exists c p, In (c, p) alts /\ In k (unguarded_refs (collect_from_type D p true no_info))) /\
  (forall s, In s (variant_payload_refs r) <-> In s (variant_payload_refs i) \/
     exists c p, In (c, p) alts /\ s = refs (collect_from_type D p true no_info)).
Proof.
  induction alts as [|(c, p) alts IH]; intros i; cbv zeta; cbn [fold_left].
  - split; [|split]; intros k; (split; [auto|]); intros [H|(? & ? & [] & _)]; auto.
  - destruct (IH (add_payload (collect_from_type D p true no_info) i)) as (I1 & I2 & I3). cbv zeta in I1, I2, I3.
    split; [|split].
    + intros k. rewrite I1. unfold add_payload at 1. cbn [guarded_refs]. rewrite extend_in. split.
      * intros [[H|H]|(c' & p' & H & G)]; auto; right; [exists c, p|exists c', p']; simpl; auto.
      * intros [H|(c' & p' & [[= <- <-]|H] & G)]; auto; right; eauto.
    + intros k. rewrite I2. unfold add_payload at 1. cbn [unguarded_refs]. rewrite extend_in. split.
      * intros [[H|H]|(c' & p' & H & G)]; auto; right; [exists c, p|exists c', p']; simpl; auto.
      * intros [H|(c' & p' & [[= <- <-]|H] & G)]; auto; right; eauto.
    + intros s. rewrite I3. unfold add_payload at 1. cbn [variant_payload_refs]. rewrite in_app_iff. simpl. split.
      * intros [[H|[<-|[]]]|(c' & p' & H & G)]; auto; right; [exists c, p|exists c', p']; simpl; auto.
      * intros [H|(c' & p' & [[= <- <-]|H] & G)]; auto; right; eauto.
Qed.

Lemma collect_ok : forall t, adds t.
Proof.
  induction t as [| | | |path|path args F|alts F|ts F|fs F|t IH|args ret F IH] using ptype_deep; intros g i.
  1-4: cbn [collect_from_type]; split; [|split]; intros k; (split; [auto|]); intros [H|H]; auto;
    [destruct H as (u & H & _); inversion H|destruct H as (_ & H); inversion H|destruct H as (? & ? & ? & H & _); inversion H].
  - cbn [collect_from_type]. split; [|split].
    + intros k. rewrite note_guarded. split.
      * intros [H|(-> & H)]; auto. right. exists false. split; [constructor; auto|auto].
      * intros [H|(u & H & G)]; auto. inversion H; subst. destruct G as [->|G]; [auto|discriminate].
    + intros k. rewrite note_unguarded. split.
      * intros [H|(-> & H)]; auto. right. split; auto. constructor; auto.
      * intros [H|(-> & H)]; auto. inversion H; subst. auto.
    + intros s. rewrite note_payloads. split; auto. intros [H|(? & ? & ? & H & _)]; auto. inversion H.
  - cbn [collect_from_type].
    destruct (fold_adds ptype (fun a => a) args F g (note_path D path g i)) as (I1 & I2 & I3). cbv zeta in I1, I2, I3.
    split; [|split].
    + intros k. rewrite I1, note_guarded. split.
      * intros [[H|(-> & H)]|(a & u & H & M & G)]; auto; right.
        -- exists false. split; auto. apply m_head. auto.
        -- exists u. split; auto. eapply m_arg; eauto.
      * intros [H|(u & H & G)]; auto. inversion H; subst.
        -- destruct G as [->|G]; [auto|discriminate].
        -- right. eauto.
    + intros k. rewrite I2, note_unguarded. split.
      * intros [[H|(-> & H)]|(-> & a & H & M)]; auto; right; split; auto; [apply m_head; auto|eapply m_arg; eauto].
      * intros [H|(-> & H)]; auto. inversion H; subst; [auto|right; eauto].
    + intros s. rewrite I3, note_payloads. split.
      * intros [H|(a & al & c & p & H & O & G & E)]; auto. right. exists al, c, p. split; auto. eapply os_arg; eauto.
      * intros [H|(al & c & p & O & G & E)]; auto. inversion O; subst. right. eauto 8.
  - cbn [collect_from_type]. destruct (fold_payloads alts i) as (I1 & I2 & I3). cbv zeta in I1, I2, I3.
    rewrite Forall_forall in F. split; [|split].
    + intros k. rewrite I1. split.
      * intros [H|(c & p & H & G)]; auto. right. destruct (F _ H true no_info) as (F1 & _). cbn [snd] in F1. apply F1 in G.
        destruct G as [[]|(u & M & _)]. exists true. split; auto. eapply m_alternative; eauto.
      * intros [H|(u & M & _)]; auto. right. inversion M; subst. exists c, p. split; auto.
        match goal with H : In (c, p) alts |- _ => destruct (F _ H true no_info) as (F1 & _) end. cbn [snd] in F1. apply F1. right. eauto.
    + intros k. rewrite I2. split.
      * intros [H|(c & p & H & G)]; auto. destruct (F _ H true no_info) as (_ & F2 & _). cbn [snd] in F2. apply F2 in G.
        destruct G as [[]|(G & _)]. discriminate.
      * intros [H|(_ & M)]; auto. inversion M.
    + intros s. rewrite I3. split.
      * intros [H|(c & p & H & ->)]; auto. right. exists alts, c, p. split; [constructor|auto].
      * intros [H|(al & c & p & O & H & ->)]; auto. inversion O; subst. right. eauto.
  - cbn [collect_from_type].
    destruct (fold_adds ptype (fun a => a) ts F g i) as (I1 & I2 & I3). cbv zeta in I1, I2, I3. split; [|split].
    + intros k. rewrite I1. split.
      * intros [H|(a & u & H & M & G)]; auto. right. exists u. split; auto. eapply m_element; eauto.
      * intros [H|(u & H & G)]; auto. inversion H; subst. right. eauto.
    + intros k. rewrite I2. split.
      * intros [H|(-> & a & H & M)]; auto. right. split; auto. eapply m_element; eauto.
      * intros [H|(-> & H)]; auto. inversion H; subst. right. eauto.
    + intros s. rewrite I3. split.
      * intros [H|(a & al & c & p & H & O & G & E)]; auto. right. exists al, c, p. split; auto. eapply os_element; eauto.
      * intros [H|(al & c & p & O & G & E)]; auto. inversion O; subst. right. eauto 8.
  - cbn [collect_from_type]. rewrite fold_pair.
    destruct (fold_adds (nat * ptype) snd fs F g i) as (I1 & I2 & I3). cbv zeta in I1, I2, I3. split; [|split].
    + intros k. rewrite I1. split.
      * intros [H|((f & a) & u & H & M & G)]; auto. right. exists u. split; auto. eapply m_field; eauto.
      * intros [H|(u & H & G)]; auto. inversion H; subst. right. exists (f, t), u. auto.
    + intros k. rewrite I2. split.
      * intros [H|(-> & (f & a) & H & M)]; auto. right. split; auto. eapply m_field; eauto.
      * intros [H|(-> & H)]; auto. inversion H; subst. right. split; auto. exists (f, t). auto.
    + intros s. rewrite I3. split.
      * intros [H|((f & a) & al & c & p & H & O & G & E)]; auto. right. exists al, c, p. split; auto. eapply os_field; eauto.
      * intros [H|(al & c & p & O & G & E)]; auto. inversion O; subst. right. exists (f, t), al, c, p. auto.
  - cbn [collect_from_type]. destruct (IH g i) as (I1 & I2 & I3). split; [|split].
    + intros k. rewrite I1. split; (intros [H|(u & H & G)]; [auto|]); right; exists u; split; auto; [constructor; auto|inversion H; subst; auto].
    + intros k. rewrite I2. split; (intros [H|(G & H)]; [auto|]); right; split; auto; [constructor; auto|inversion H; subst; auto].
    + intros s. rewrite I3. split; (intros [H|(al & c & p & O & G)]; [auto|]); right; exists al, c, p; split; auto; [constructor; auto|inversion O; subst; auto].
  - cbn [collect_from_type].
    destruct (fold_adds ptype (fun a => a) args F g i) as (I1 & I2 & I3). cbv zeta in I1, I2, I3.
    destruct (IH g (fold_left (fun i0 a => collect_from_type D a g i0) args i)) as (J1 & J2 & J3). split; [|split].
    + intros k. rewrite J1, I1. split.
      * intros [[H|(a & u & H & M & G)]|(u & M & G)]; auto; right; exists u; split; auto; [eapply m_fun_arg; eauto|apply m_fun_ret; auto].
      * intros [H|(u & H & G)]; auto. inversion H; subst; [left; right; eauto|right; eauto].
    + intros k. rewrite J2, I2. split.
      * intros [[H|(-> & a & H & M)]|(-> & M)]; auto; right; split; auto; [eapply m_fun_arg; eauto|apply m_fun_ret; auto].
      * intros [H|(-> & H)]; auto. inversion H; subst; [left; right; eauto|right; auto].
    + intros s. rewrite J3, I3. split.
      * intros [[H|(a & al & c & p & H & O & G & E)]|(al & c & p & O & G)]; auto; right; exists al, c, p; split; auto; [eapply os_fun_arg; eauto|apply os_fun_ret; auto].
      * intros [H|(al & c & p & O & G & E)]; auto. inversion O as [| | | | |? ? a Ha Oa|? ? Or]; subst; [left; right; exists a, al, c, p; auto|right; exists al, c, p; auto].
Qed.

Lemma payload_refs : forall p k, In k (refs (collect_from_type D p true no_info)) <-> exists u, mention D u p k.
Proof.
  intros p k. rewrite refs_in. destruct (collect_ok p true no_info) as (H1 & H2 & _). rewrite H1, H2. simpl. split.
  - intros [[[]|(u & H & _)]|[[]|(H & _)]]; eauto. discriminate.
  - intros (u & H). left. right. eauto.
Qed.

Lemma decl_info_fold : forall d, decl_info D d = fold_left (fun i t => collect_from_type D t false i) (written d) no_info.
Proof. reflexivity. Qed.

Lemma decl_info_ok : forall d,
  (forall k, In k (refs (decl_info D d)) <-> exists t u, In t (written d) /\ mention D u t k) /\
  (forall k, In k (unguarded_refs (decl_info D d)) <-> exists t, In t (written d) /\ mention D false t k) /\
  (forall s, In s (variant_payload_refs (decl_info D d)) <->
     exists t alts c p, In t (written d) /\ outer_sum alts t /\ In (c, p) alts /\ s = refs (collect_from_type D p true no_info)).
Proof.
  intros d. assert (F : Forall (fun t => adds ((fun x => x) t)) (written d)) by (apply Forall_forall; intros; apply collect_ok).
  destruct (fold_adds ptype (fun a => a) (written d) F false no_info) as (I1 & I2 & I3). cbv zeta in I1, I2, I3.
  rewrite <- decl_info_fold in *. split; [|split].
  - intros k. rewrite refs_in, I1, I2. simpl. split.
    + intros [[[]|(t & u & H & M & _)]|[[]|(_ & t & H & M)]]; eauto.
    + intros (t & [|] & H & M); [left; right|right; right]; eauto 8.
  - intros k. rewrite I2. simpl. split; [intros [[]|(_ & H)]|]; auto.
  - intros s. rewrite I3. simpl. split; [intros [[]|H]|]; auto.
Qed.
End Collect.
