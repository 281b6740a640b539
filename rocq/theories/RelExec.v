(** Executions of concrete programs, to exhibit witnesses: a deterministic executor whose steps are executions of [RelSpec]. *)
From Coq Require Import NArith ZArith List Bool Lia.
From Verif Require Import MachInt RelModel RelSpec RelLoopSpec RelState.
Import ListNotations.
Open Scope Z_scope.

Definition put (m : mem) (p : place) (v : atom) : mem := fun q => if place_eqb q p then v else m q.
(** Overwriting [p] with a value and the cells inside it. *)
Definition put_all (m : mem) (p : place) (v : list N -> atom) : mem :=
  fun q => match path_from p q with Some path => v path | None => m q end.

Section Exec.
Variable escaped : root -> bool.
Variable types : root -> root_type.

Lemma put_writes : forall m p q v, of_place q p -> only_writes escaped (of_place q) m (put m p v).
Proof.
  intros m p q v O x _ N. unfold put. destruct (place_eqb x p) eqn:E; [|reflexivity]. apply place_eqb_eq in E. subst. contradiction.
Qed.
Lemma put_all_writes : forall m p v, only_writes escaped (of_place p) m (put_all m p v).
Proof.
  intros m p v x _ N. unfold put_all. destruct (path_from p x) as [path|] eqn:E; [|reflexivity].
  exfalso. apply N. exists path. apply path_from_iff, E.
Qed.
Lemma put_same : forall m p v, put m p v p = v.
Proof. intros m p v. unfold put. rewrite place_eqb_refl. reflexivity. Qed.
Lemma put_all_below : forall m p v path, put_all m p v (below p path) = v path.
Proof. intros m p v path. unfold put_all. rewrite (proj2 (path_from_iff p (below p path) path) eq_refl). reflexivity. Qed.
Lemma nothing : forall m w, only_writes escaped w m m.
Proof. intros m w x _ _. reflexivity. Qed.
Lemma of_field : forall p n, of_place p (field p n).
Proof. intros p n. exists [n]. reflexivity. Qed.

Definition arg (m : mem) (args : list (place * bool)) (i : nat) : option Z :=
  match nth_error args i with Some (p, _) => Some (num (m p)) | None => None end.
Lemma arg_ok : forall m args i v, arg m args i = Some v -> arg_at m args i v.
Proof. intros m args i v. unfold arg, arg_at. destruct (nth_error args i) as [[p b]|]; [|discriminate]. intros [= <-]. exists p, b. split; reflexivity. Qed.
Definition binary (m : mem) (args : list (place * bool)) (result : place) (f : Z -> Z -> atom) : option mem :=
  if Nat.eqb (length args) 2 then
    match arg m args 0, arg m args 1 with Some x, Some y => Some (put m result (f x y)) | _, _ => None end
  else None.
(** Only calls that return. *)
Definition call_fn (m : mem) (f : option callee) (args : list (place * bool)) (result : place) : option mem :=
  match f with
  | None | Some OtherKnown => Some m
  | Some IntAdd => binary m args result (fun x y => Num (wrap64 (x + y)))
  | Some IntSub => binary m args result (fun x y => Num (wrap64 (x - y)))
  | Some IntMul => binary m args result (fun x y => Num (wrap64 (x * y)))
  | Some IntCmp => binary m args result (fun x y => Ord (Z.compare x y))
  | Some ArrayLen => match args with [(a, _)] => Some (put m result (Num (length_of m a))) | _ => None end
  | Some ArrayIndex =>
      match args with
      | [(a, _); (i, _)] =>
          if 0 <=? length_of m a then match resolve (num (m i)) (length_of m a) with Some _ => Some m | None => None end else None
      | _ => None
      end
  | Some (RangeNext as g) | Some (RangeInclusiveNext as g) =>
      match args with
      | [(it, true)] =>
          let incl := match g with RangeNext => false | _ => true end in
          let cursor := num (m (field it range_next)) in
          let (some, cursor') :=
            range_step incl (num (m (field (field it range_range) range_start))) (num (m (field (field it range_range) range_end))) cursor in
          let m' := put_all (put m (field it range_next) (Num cursor')) result (fun path => match path with [] => Opt some | _ => Num cursor end) in
          if inside_or_same result (field it range_next) then None else Some m'
      | _ => None
      end
  | _ => None
  end.
Lemma num_wrapped : forall a, wrap64 (num a) = num a.
Proof. intros [z| | | |]; try reflexivity. apply RelAlgebra.wrap_wrap. Qed.
Lemma step_cursor_wrapped : forall incl s e c, wrap64 c = c -> wrap64 (snd (range_step incl s e c)) = snd (range_step incl s e c).
Proof. intros incl s e c W. unfold range_step. destruct (s <=? e); destruct (if incl then _ else _); cbn [snd]; try apply RelAlgebra.wrap_wrap; exact W. Qed.
Lemma call_fn_ok : forall m f args result m', call_fn m f args result = Some m' -> exec_call escaped m f args result true m'.
Proof.
  intros m f args result m' H.
  assert (Bin : forall f, binary m args result f = Some m' -> exists x y, length args = 2%nat /\ arg_at m args 0 x /\ arg_at m args 1 y /\ m' = put m result (f x y)).
  { intros g B. unfold binary in B. destruct (Nat.eqb_spec (length args) 2) as [L|]; [|discriminate].
    destruct (arg m args 0) as [x|] eqn:X; [|discriminate]. destruct (arg m args 1) as [y|] eqn:Y; [|discriminate]. injection B as <-.
    exists x, y. split; [exact L|split; [apply arg_ok, X|split; [apply arg_ok, Y|reflexivity]]]. }
  assert (Own : forall v, only_writes escaped (of_place result) m (put m result v)) by (intro v; apply put_writes, of_place_refl).
  destruct f as [[]|]; cbn [call_fn] in H; try discriminate.
  - destruct (Bin _ H) as (x & y & L & X & Y & ->). eapply exec_add; try eassumption; [apply Own|apply put_same].
  - destruct (Bin _ H) as (x & y & L & X & Y & ->). eapply exec_sub; try eassumption; [apply Own|apply put_same].
  - destruct (Bin _ H) as (x & y & L & X & Y & ->). eapply exec_mul; try eassumption; [apply Own|apply put_same].
  - destruct (Bin _ H) as (x & y & L & X & Y & ->). eapply exec_cmp; try eassumption; [apply Own|apply put_same].
  - destruct args as [|[a b] [|]]; try discriminate. injection H as <-. apply exec_len; [apply Own|apply put_same].
  - destruct args as [|[a b] [|[i c] [|]]]; try discriminate. destruct (Z.leb_spec 0 (length_of m a)) as [L|]; [|discriminate].
    destruct (resolve (num (m i)) (length_of m a)) eqn:Rs; [|discriminate]. injection H as <-. apply exec_index; [exact L|congruence|apply nothing].
  - destruct args as [|[it []] [|]]; try discriminate.
    destruct (range_step _ _ _ _) as [some cursor'] eqn:RS. destruct (inside_or_same result _) eqn:I; [discriminate|]. injection H as <-.
    apply inside_or_same_false in I.
    eapply (exec_step _ m RangeNext false it result _ _ _ some cursor'); try reflexivity; try eassumption.
    + intros q _ N. unfold put_all. destruct (path_from result q) as [path|] eqn:P; [exfalso; apply N; right; exists path; apply path_from_iff, P|].
      unfold put. destruct (place_eqb q _) eqn:Q; [|reflexivity]. apply place_eqb_eq in Q. exfalso. apply N. left. subst q. apply of_place_refl.
    + unfold put_all. destruct (path_from result (field it range_next)) as [path|] eqn:P; [exfalso; apply I; exists path; apply path_from_iff, P|].
      rewrite put_same. pose proof (step_cursor_wrapped false (num (m (field (field it range_range) range_start))) (num (m (field (field it range_range) range_end))) _ (num_wrapped (m (field it range_next)))) as W.
      rewrite RS in W. exact W.
    + unfold put_all. rewrite (proj2 (path_from_iff result result [])); [reflexivity|]. destruct result. unfold below. rewrite app_nil_r. reflexivity.
    + intros q (path & ne & ->). rewrite put_all_below. destruct path; [congruence|]. cbn [num]. apply num_wrapped.
  - destruct args as [|[it []] [|]]; try discriminate.
    destruct (range_step _ _ _ _) as [some cursor'] eqn:RS. destruct (inside_or_same result _) eqn:I; [discriminate|]. injection H as <-.
    apply inside_or_same_false in I.
    eapply (exec_step _ m RangeInclusiveNext true it result _ _ _ some cursor'); try reflexivity; try eassumption.
    + intros q _ N. unfold put_all. destruct (path_from result q) as [path|] eqn:P; [exfalso; apply N; right; exists path; apply path_from_iff, P|].
      unfold put. destruct (place_eqb q _) eqn:Q; [|reflexivity]. apply place_eqb_eq in Q. exfalso. apply N. left. subst q. apply of_place_refl.
    + unfold put_all. destruct (path_from result (field it range_next)) as [path|] eqn:P; [exfalso; apply I; exists path; apply path_from_iff, P|].
      rewrite put_same. pose proof (step_cursor_wrapped true (num (m (field (field it range_range) range_start))) (num (m (field (field it range_range) range_end))) _ (num_wrapped (m (field it range_next)))) as W.
      rewrite RS in W. exact W.
    + unfold put_all. rewrite (proj2 (path_from_iff result result [])); [reflexivity|]. destruct result. unfold below. rewrite app_nil_r. reflexivity.
    + intros q (path & ne & ->). rewrite put_all_below. destruct path; [congruence|]. cbn [num]. apply num_wrapped.
  - injection H as <-. apply exec_unknown; [right; reflexivity|apply nothing].
  - injection H as <-. apply exec_unknown; [left; reflexivity|apply nothing].
Qed.

Definition op_fn (m : mem) (R : regs) (o : op) : option (mem * regs) :=
  match o with
  | Alloca _ | ClearOrDrop _ | Clone _ => Some (m, R)
  | Store (Const (Some z)) dst => Some (put m dst (Num z), R)
  | Store (Reg r) dst => Some (put_all m dst (R r), R)
  | Store _ _ => Some (m, R)
  | BuildArray n dst => Some (put m (field dst array_len) (Num (Z.of_nat n)), R)
  | Load r src | ExtractTag r src => Some (m, set_reg R r (fun path => m (below src path)))
  | Subfield base _ =>
      match types (fst base), snd base with
      | ArrayType, [] => if 0 <=? length_of m base then Some (m, R) else None
      | _, _ => Some (m, R)
      end
  | Memcpy src dst => Some (put_all m dst (fun path => m (below src path)), R)
  | Move src dst => Some (put_all m dst (fun path => m (below src path)), R)
  | CompareEqual r v t => Some (m, set_reg R r (fun _ => match matches_tag (scrutinee_atom m R v) t with Some b => Bit b | None => Junk end))
  | Call f args result => match call_fn m f args result with Some m' => Some (m', R) | None => None end
  | OtherOp None => Some (m, R)
  | OtherOp (Some r) => Some (m, set_reg R r (R r))
  end.
Lemma op_fn_ok : forall m R o m' R', op_fn m R o = Some (m', R') -> exec_op escaped types m R o true m' R'.
Proof.
  intros m R o m' R' H. destruct o; cbn [op_fn] in H.
  - injection H as <- <-. apply exec_alloca, nothing.
  - destruct v as [p|r|[z|]]; injection H as <- <-; apply exec_store; try apply nothing; try exact I.
    + apply put_all_writes.
    + intro path. apply put_all_below.
    + apply put_writes, of_place_refl.
    + apply put_same.
  - injection H as <- <-. apply exec_build; [apply put_writes, of_field|apply put_same].
  - injection H as <- <-. apply exec_load, nothing.
  - destruct (types (fst base)) eqn:T; [destruct (snd base) eqn:S; [destruct (Z.leb_spec 0 (length_of m base)); [|discriminate]|]| | |]; injection H as <- <-;
      apply exec_subfield; try apply nothing; intros; congruence || assumption.
  - injection H as <- <-. apply exec_copy; [apply put_all_writes|intro path; apply put_all_below].
  - injection H as <- <-. apply exec_move; [|intro path; apply put_all_below]. intros q E N. apply put_all_writes; [exact E|tauto].
  - injection H as <- <-. apply exec_clear, nothing.
  - injection H as <- <-. apply exec_tag, nothing.
  - injection H as <- <-. apply exec_compare; [apply nothing|]. intros b ->. reflexivity.
  - destruct (call_fn m f args result) eqn:C; [|discriminate]. injection H as <- <-. apply exec_op_call, call_fn_ok, C.
  - injection H as <- <-. apply exec_clone, nothing.
  - destruct r; injection H as <- <-; (apply exec_other; [apply nothing|]); [eexists; reflexivity|reflexivity].
Qed.

Variable prog : list block.
Variable entry : nat.
(** Operations are executed only when [allowed]. *)
Variable allowed : mem -> op -> bool.
Variable quiet : mem -> op -> Prop.
Hypothesis allowed_quiet : forall m o, allowed m o = true -> quiet m o.
Record point := Point { visited : list nat; at_block : nat; at_op : nat; memory : mem; registers : regs }.
Definition do_op (m : mem) (R : regs) (o : op) : option (mem * regs) := if allowed m o then op_fn m R o else None.
Definition next (p : point) : option point :=
  let bl := block_at prog (at_block p) in
  let m := memory p in
  let R := registers p in
  match nth_error (ops bl) (at_op p) with
  | Some o => match do_op m R o with Some (m', R') => Some (Point (visited p) (at_block p) (S (at_op p)) m' R') | None => None end
  | None =>
      if Nat.eqb (at_op p) (length (ops bl)) then
        let go c m R := Some (Point (c :: visited p) c 0 m R) in
        match term bl with
        | CondBr (Const _) t _ => go t m R
        | CondBr c t e => match scrutinee_atom m R c with Bit v => go (if v then t else e) m R | _ => None end
        | Invoke o n _ => match do_op m R o with Some (m', R') => go n m' R' | None => None end
        | Jump (c :: _) => go c m R
        | Jump [] => None
        end
      else None
  end.
Fixpoint execute (n : nat) (p : point) : option point :=
  match n with O => Some p | S n => match next p with Some p => execute n p | None => None end end.
Definition reaches (p : point) : Prop :=
  reach escaped types prog entry quiet (visited p) (at_block p) (at_op p) (memory p) (registers p).
Lemma do_op_ok : forall m R o m' R', do_op m R o = Some (m', R') -> exec_op escaped types m R o true m' R' /\ quiet m o.
Proof.
  intros m R o m' R'. unfold do_op. destruct (allowed m o) eqn:A; [|discriminate]. intro H. split; [apply op_fn_ok, H|apply allowed_quiet, A].
Qed.
Lemma next_ok : forall p p', reaches p -> next p = Some p' -> reaches p'.
Proof.
  intros [hist b i m R] p' H. unfold next. cbn [at_block at_op memory registers visited]. unfold reaches in *. cbn [at_block at_op memory registers visited] in H.
  destruct (nth_error (ops (block_at prog b)) i) as [o|] eqn:O.
  - destruct (do_op m R o) as [[m' R']|] eqn:X; [|discriminate]. intros [= <-]. cbn. apply do_op_ok in X. destruct X. eapply reach_op; eassumption.
  - destruct (Nat.eqb_spec i (length (ops (block_at prog b)))) as [->|]; [|discriminate].
    destruct (term (block_at prog b)) as [c t e|o n e|[|c ts]] eqn:T.
    + assert (G : forall v, branches m R c v -> reach escaped types prog entry quiet ((if v then t else e) :: hist) (if v then t else e) 0 m R)
        by (intros v Br; eapply reach_branch; eassumption).
      destruct c as [p|r|z].
      * destruct (scrutinee_atom m R (Place p)) as [| |v| |] eqn:S; try discriminate. intros [= <-]. exact (G v S).
      * destruct (scrutinee_atom m R (Reg r)) as [| |v| |] eqn:S; try discriminate. intros [= <-]. exact (G v S).
      * intros [= <-]. exact (G true I).
    + destruct (do_op m R o) as [[m' R']|] eqn:X; [|discriminate]. intros [= <-]. cbn. apply do_op_ok in X. destruct X as [X Q].
      apply (reach_invoke escaped types prog entry quiet hist b m R o n e true m' R' H T X Q).
    + discriminate.
    + intros [= <-]. cbn. eapply reach_jump; try eassumption. left. reflexivity.
Qed.
Lemma execute_ok : forall n p p', reaches p -> execute n p = Some p' -> reaches p'.
Proof.
  induction n as [|n IH]; intros p p' H; cbn [execute]; [intros [= <-]; exact H|].
  destruct (next p) as [q|] eqn:N; [|discriminate]. apply IH, (next_ok p q H N).
Qed.
Definition begin (m : mem) (R : regs) : point := Point [entry] entry 0 m R.
Lemma begin_ok : forall m R, reaches (begin m R).
Proof. intros m R. apply reach_entry. Qed.
End Exec.

(** The condition of the theorem. *)
Definition closeb (x y : Z) : bool := (- two63 <? x - y) && (x - y <? two63).
Definition calm (m : mem) (o : op) : bool :=
  match o with
  | Call (Some IntCmp) args _ => match arg m args 0, arg m args 1 with Some x, Some y => closeb x y | _, _ => true end
  | Call (Some ((RangeNext | RangeInclusiveNext) as f)) [(it, _)] _ =>
      let stop := num (m (field (field it range_range) range_end)) in
      closeb (num (m (field (field it range_range) range_start))) stop &&
      match f with RangeInclusiveNext => negb ((num (m (field it range_next)) =? int_max) && (stop =? int_max)) | _ => true end
  | _ => true
  end.
Lemma closeb_ok : forall x y, closeb x y = true -> close x y.
Proof. intros x y H. apply andb_true_iff in H. destruct H as [A%Z.ltb_lt B%Z.ltb_lt]. split; assumption. Qed.
Lemma arg_at_fn : forall m args i x, arg_at m args i x -> arg m args i = Some x.
Proof. intros m args i x (p & b & E & <-). unfold arg. rewrite E. reflexivity. Qed.
Lemma calm_ok : forall m o, calm m o = true -> no_overflow m o /\ no_wrap m o.
Proof.
  intros m o. destruct o as [| | | | | | | | | |f args result| |]; try (split; exact I). destruct f as [[]|]; try (split; exact I); cbn [calm no_overflow no_wrap].
  - intro H. split; [|exact I]. intros x y X Y. rewrite (arg_at_fn _ _ _ _ X), (arg_at_fn _ _ _ _ Y) in H. apply closeb_ok, H.
  - destruct args as [|[it b] [|]]; try (split; exact I). intros [H _]%andb_true_iff. split; [apply closeb_ok, H|exact I].
  - destruct args as [|[it b] [|]]; try (split; exact I). intros [H W]%andb_true_iff. split; [apply closeb_ok, H|].
    apply negb_true_iff in W. intros [E1 E2]. rewrite E1, E2, Z.eqb_refl in W. discriminate.
Qed.

(** ** Numbering symbols: an injection with an inverse *)
Fixpoint code (l : list nat) : positive :=
  match l with [] => xH | n :: l => Nat.iter n xI (xO (code l)) end.
Fixpoint uncode (p : positive) : list nat :=
  match p with xH => [] | xO p => 0%nat :: uncode p | xI p => match uncode p with n :: l => S n :: l | [] => [] end end.
Lemma uncode_code : forall l, uncode (code l) = l.
Proof.
  induction l as [|n l IH]; [reflexivity|]. cbn [code]. induction n as [|n IHn]; cbn [Nat.iter nat_rect uncode].
  - rewrite IH. reflexivity.
  - unfold Nat.iter in IHn. rewrite IHn. reflexivity.
Qed.
Definition symbol_list (s : symbol) : list nat :=
  match s with
  | Register r => [1%nat; N.to_nat r]
  | Stored (r, path) d =>
      [0%nat] ++ match r with Param n => [0%nat; N.to_nat n] | Local n => [1%nat; N.to_nat n] end ++
      match d with Entry => [0%nat; 0%nat; 0%nat] | At b i => [1%nat; b; i] | Join b => [2%nat; b; 0%nat] end ++ map N.to_nat path
  end.
Definition list_symbol (l : list nat) : symbol :=
  match l with
  | [1%nat; r] => Register (N.of_nat r)
  | _ :: k :: n :: dk :: b :: i :: path =>
      Stored (match k with O => Param (N.of_nat n) | _ => Local (N.of_nat n) end, map N.of_nat path)
        match dk with O => Entry | 1%nat => At b i | _ => Join b end
  | _ => Register 0%N
  end.
Lemma list_symbol_list : forall s, list_symbol (symbol_list s) = s.
Proof.
  intros [[r path] d|r].
  - assert (P : map N.of_nat (map N.to_nat path) = path) by (rewrite map_map; rewrite (map_ext _ (fun x => x)); [apply map_id|intro a; apply N2Nat.id]).
    destruct r as [n|n], d as [|b i|b]; cbn [symbol_list app list_symbol]; rewrite P, N2Nat.id; reflexivity.
  - cbn [symbol_list list_symbol]. rewrite N2Nat.id. reflexivity.
Qed.
Definition sid0 (s : symbol) : N := Npos (code (symbol_list s)).
Definition name0 (x : N) : symbol := match x with Npos p => list_symbol (uncode p) | N0 => Register 0%N end.
Lemma name_sid0 : forall s, name0 (sid0 s) = s.
Proof. intro s. unfold name0, sid0. rewrite uncode_code. apply list_symbol_list. Qed.
