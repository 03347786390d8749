(** * Lists: properties C32-C34 (list primitives, sort, shuffle, randint). *)
From Coq Require Import Lia Permutation Sorted.
From Verif.Model Require Import Base Syntax World Prog Lex Parse Meta Eval Builtins CoreSrc Main.
From Verif.Proofs Require Import Run Heap Rules Forms Natives.
From Verif.Spec Require Import Vocabulary.
From Verif.Props Require Import Numbers.
Open Scope prog_scope.
Open Scope list_scope.

(** ** Specification *)
Definition proper (v : val) : Prop := exists xs, v = vlist xs.
Definition is_list (v : val) : Prop := v = VNil \/ exists a d, v = VCons a d.
Definition symbol (v : val) : Prop := exists s, v = VAtom s.

(** Bytewise order of texts: a proper prefix comes first; otherwise the first
    different byte decides. *)
Definition bytes_before (a b : string) : Prop :=
  (exists c r, b = (a ++ String c r)%string) \/
  (exists p c d x y, a = (p ++ String c x)%string /\ b = (p ++ String d y)%string /\ (byte c < byte d)%N).
Definition bytes_le (a b : string) : Prop := a = b \/ bytes_before a b.
(** Ascending: every element is below all the later ones. *)
Definition ascending {A} (le : A -> A -> Prop) (l : list A) : Prop := StronglySorted le l.

(** ** C32 *)
Theorem C32_cons : forall a d e w, standard "cons" e w -> gives (call_on "cons" [a; d]) e w (VCons a d).
Proof. intros. apply (gives_native _ BCons); auto. apply runs_ret_. Qed.
Theorem C32_car : forall a d e w, standard "car" e w -> gives (call_on "car" [VCons a d]) e w a.
Proof. intros. apply (gives_native _ BCar); auto. apply runs_ret_. Qed.
Theorem C32_cdr : forall a d e w, standard "cdr" e w -> gives (call_on "cdr" [VCons a d]) e w d.
Proof. intros. apply (gives_native _ BCdr); auto. apply runs_ret_. Qed.
Theorem C32_car_nil : forall e w, standard "car" e w -> gives (call_on "car" [VNil]) e w VNil.
Proof. intros. apply (gives_native _ BCar); auto. apply runs_ret_. Qed.
Theorem C32_cdr_nil : forall e w, standard "cdr" e w -> gives (call_on "cdr" [VNil]) e w VNil.
Proof. intros. apply (gives_native _ BCdr); auto. apply runs_ret_. Qed.
Theorem C32_car_cdr_rejects : forall g vs e w, g = "car"%string \/ g = "cdr"%string -> standard g e w ->
  (forall v, vs = [v] -> ~ is_list v) -> rejects (call_on g vs) e w.
Proof.
  intros g vs e w G S N.
  assert (N1 : vs <> [VNil]) by (intros ->; apply (N VNil eq_refl); now left).
  assert (N2 : forall a d, vs <> [VCons a d]) by (intros a d ->; apply (N _ eq_refl); right; eauto).
  destruct G as [-> | ->].
  - assert (exists er, runs step Inf (builtin_prog BCar vs e) w (Er er) w) as [er R].
    { destruct vs as [|[] [|? ?]]; try (eexists; apply runs_raise_); [congruence|now edestruct N2]. }
    now apply (rejects_native _ BCar _ _ _ er).
  - assert (exists er, runs step Inf (builtin_prog BCdr vs e) w (Er er) w) as [er R].
    { destruct vs as [|[] [|? ?]]; try (eexists; apply runs_raise_); [congruence|now edestruct N2]. }
    now apply (rejects_native _ BCdr _ _ _ er).
Qed.
Theorem C32_cons_rejects : forall vs e w, standard "cons" e w -> length vs <> 2%nat -> rejects (call_on "cons" vs) e w.
Proof.
  intros vs e w S N.
  assert (exists er, runs step Inf (builtin_prog BCons vs e) w (Er er) w) as [er R].
  { destruct vs as [|? [|? [|? ?]]]; try (eexists; apply runs_raise_). now destruct N. }
  now apply (rejects_native _ BCons _ _ _ er).
Qed.
Theorem C32_list : forall vs e w, standard "list" e w -> gives (call_on "list" vs) e w (vlist vs).
Proof. intros. apply (gives_native _ BList); auto. apply runs_ret_. Qed.
Theorem C32_len : forall xs e w, standard "len" e w ->
  gives (call_on "len" [vlist xs]) e w (VNum (Z.of_nat (length xs))).
Proof.
  intros. apply (gives_native _ BLen); auto. cbn [builtin_prog arg1].
  rewrite cons_to_exprs_vlist. destruct xs; apply runs_ret_.
Qed.
(** The length of an improper list crashes the process. *)
Theorem C32_len_improper : forall a d e w, standard "len" e w -> ~ proper (VCons a d) ->
  crashes (call_on "len" [VCons a d]) e w.
Proof.
  intros a d e w S N. eapply (crashes_native _ BLen); auto. cbn [builtin_prog arg1 is_conscell].
  destruct (cons_to_exprs (VCons a d)) as [l|] eqn:E.
  - destruct N. exists l. now apply cons_to_exprs_some.
  - apply runs_panic. split; reflexivity.
Qed.
Theorem C32_len_rejects : forall vs e w, standard "len" e w ->
  (forall v, vs = [v] -> ~ is_list v) -> rejects (call_on "len" vs) e w.
Proof.
  intros vs e w S N.
  assert (exists er, runs step Inf (builtin_prog BLen vs e) w (Er er) w) as [er R].
  { destruct vs as [|v [|? ?]]; try (eexists; apply runs_raise_). specialize (N v eq_refl). unfold is_list in N.
    cbn [builtin_prog arg1]. destruct v; try (eexists; apply runs_raise_); [tauto|destruct N; eauto]. }
  now apply (rejects_native _ BLen _ _ _ er).
Qed.
(** The predicates answer t or () on every value, and () exactly when the value is not of the kind. *)
Theorem C32_predicates : forall g v e w,
  In g ["list?"; "atom?"; "number?"; "not"]%string -> standard g e w ->
  let P := if String.eqb g "list?" then is_list v else if String.eqb g "atom?" then symbol v
           else if String.eqb g "number?" then number v else v = VNil in
  (P -> gives (call_on g [v]) e w VT) /\ (~ P -> gives (call_on g [v]) e w VNil).
Proof.
  intros g v e w G S.
  destruct G as [<-|[<-|[<-|[<-|[]]]]]; cbn [String.eqb Ascii.eqb Bool.eqb].
  - split; intros H; apply (gives_native _ BListP); auto; cbn [builtin_prog arg1]; unfold is_list in H.
    + destruct H as [-> | (a & d & ->)]; apply runs_ret_.
    + destruct v; try apply runs_ret_; destruct H; eauto.
  - split; intros H; apply (gives_native _ BAtomP); auto; cbn [builtin_prog arg1]; unfold symbol in H.
    + destruct H as [s ->]; apply runs_ret_.
    + destruct v; try apply runs_ret_; destruct H; eauto.
  - split; intros H; apply (gives_native _ BNumberP); auto; cbn [builtin_prog arg1]; unfold number in H.
    + destruct H as [s ->]; apply runs_ret_.
    + destruct v; try apply runs_ret_; destruct H; eauto.
  - split; intros H; apply (gives_native _ BNot); auto; cbn [builtin_prog arg1].
    + subst v. apply runs_ret_.
    + destruct v; try apply runs_ret_; destruct H; eauto.
Qed.
(** Arguments that are forms: the law for cons, car and cdr as programs. *)
Theorem C32_car_of_cons : forall x y a d e w w1 w2,
  standard "cons" e w2 -> not_macro "cons" e w -> lookup e "cons" w = None ->
  not_macro "car" e w -> lookup e "car" w = None -> lookup e "car" w2 = None ->
  evals x e w (Ok a) w1 -> evals y e w1 (Ok d) w2 ->
  evals (form "car" [form "cons" [x; y]]) e w (Ok a) w2.
Proof.
  intros x y a d e w w1 w2 Sc NC LC NR LR LR2 X Y.
  assert (C : evals (form "cons" [x; y]) e w (Ok (VCons a d)) w2).
  { apply evals_call_iff; [intros s E; injection E as <-; split; auto|].
    exists (Ok (VBuiltin BCons)), w. split; [apply evals_atom; simpl; rewrite LC; auto|].
    exists [a; d], None, w2. split; [econstructor; [exact X|econstructor; [exact Y|constructor]]|].
    apply invokes_builtin. exists (Ok (VCons a d)). split; auto. apply native_iff. apply runs_ret_. }
  apply evals_call_iff; [intros s E; injection E as <-; split; auto|].
  exists (Ok (VBuiltin BCar)), w. split; [apply evals_atom; simpl; rewrite LR; auto|].
  exists [VCons a d], None, w2. split; [econstructor; [exact C|constructor]|].
  apply invokes_builtin. exists (Ok a). split; auto. apply native_iff. apply runs_ret_.
Qed.
Example C32_example :
  gives (call_on "car" [vlist [VNum 1; VNum 2]]) global_env demo (VNum 1) /\
  gives (call_on "len" [vlist [VNum 1; VNum 2]]) global_env demo (VNum 2) /\
  gives (call_on "not" [VNil]) global_env demo VT /\
  crashes (call_on "len" [VCons (VNum 1) (VNum 2)]) global_env demo /\
  rejects (call_on "cdr" [VNum 1]) global_env demo.
Proof.
  split; [|split; [|split; [|split]]].
  - rewrite vlist_cons. apply C32_car. now apply demo_standard.
  - apply (C32_len [VNum 1; VNum 2]). now apply demo_standard.
  - apply (proj1 (C32_predicates "not" VNil global_env demo ltac:(simpl; auto) ltac:(now apply demo_standard))).
    reflexivity.
  - apply C32_len_improper; [now apply demo_standard|]. intros [[|x [|y xs]] E]; rewrite ?vlist_cons in E; discriminate.
  - apply C32_car_cdr_rejects; [auto|now apply demo_standard|]. intros v E. injection E as <-.
    intros [|(a & d & E)]; discriminate.
Qed.

(** ** C33 *)
Lemma byte_inj c d : byte c = byte d -> c = d.
Proof. intros E. rewrite <- (Ascii.ascii_N_embedding c), <- (Ascii.ascii_N_embedding d). unfold byte in E. now rewrite E. Qed.
Lemma str_ltb_iff a : forall b, str_ltb a b = true <-> bytes_before a b.
Proof.
  induction a as [|c a IH]; intros b.
  - destruct b as [|d b]; simpl; split; intros H; try discriminate; auto.
    + destruct H as [(c & r & E)|(p & c & d & x & y & E & _)]; [discriminate|]. destruct p; discriminate.
    + left. now exists d, b.
  - destruct b as [|d b]; simpl.
    + split; [discriminate|]. intros [(c' & r & E)|(p & c' & d & x & y & _ & E & _)]; [discriminate|]. destruct p; discriminate.
    + destruct (byte c <? byte d)%N eqn:L; [|destruct (byte d <? byte c)%N eqn:G].
      * apply N.ltb_lt in L. split; auto. intros _. right. exists ""%string, c, d, a, b. simpl. auto.
      * apply N.ltb_lt in G. split; [discriminate|]. intros [(c' & r & E)|(p & c' & d' & x & y & E1 & E2 & LT)].
        -- simpl in E. injection E as -> ->. lia.
        -- destruct p as [|q p]; simpl in *; injection E1 as -> ->; injection E2 as -> ->; lia.
      * apply N.ltb_ge in L, G. assert (byte c = byte d) as B by lia. apply byte_inj in B. subst d.
        rewrite IH. split; intros [(c' & r & E)|(p & c' & d' & x & y & E1 & E2 & LT)].
        -- left. exists c', r. simpl. now subst.
        -- right. exists (String c p), c', d', x, y. simpl. now subst.
        -- left. exists c', r. simpl in E. now injection E.
        -- destruct p as [|q p]; simpl in *.
           ++ injection E1 as -> ->. injection E2 as -> ->. lia.
           ++ injection E1 as -> ->. injection E2 as ->. right. exists p, c', d', x, y. auto.
Qed.
Lemma str_ltb_irrefl a : str_ltb a a = false.
Proof. induction a as [|c a IH]; auto. simpl. now rewrite N.ltb_irrefl. Qed.
Lemma str_ltb_trans a : forall b c, str_ltb a b = true -> str_ltb b c = true -> str_ltb a c = true.
Proof.
  induction a as [|x a IH]; intros [|y b] [|z c]; simpl; try discriminate; auto.
  destruct (byte x <? byte y)%N eqn:A, (byte y <? byte x)%N eqn:B, (byte y <? byte z)%N eqn:C,
    (byte z <? byte y)%N eqn:D, (byte x <? byte z)%N eqn:E, (byte z <? byte x)%N eqn:F;
    rewrite ?N.ltb_lt, ?N.ltb_ge in *; try lia; try discriminate; auto; eauto.
Qed.
Lemma str_ltb_total a : forall b, str_ltb a b = false -> str_ltb b a = false -> a = b.
Proof.
  induction a as [|x a IH]; intros [|y b]; simpl; try discriminate; auto.
  destruct (byte x <? byte y)%N eqn:A, (byte y <? byte x)%N eqn:B; try discriminate.
  rewrite N.ltb_ge in *. intros. f_equal; [apply byte_inj; lia|auto].
Qed.
Lemma bytes_le_iff a b : bytes_le a b <-> str_ltb b a = false.
Proof.
  split.
  - intros [-> | H]; [apply str_ltb_irrefl|]. apply str_ltb_iff in H.
    destruct (str_ltb b a) eqn:E; auto. pose proof (str_ltb_trans _ _ _ H E) as X.
    now rewrite str_ltb_irrefl in X.
  - intros E. destruct (str_ltb a b) eqn:F; [right; now apply str_ltb_iff|]. left. now apply str_ltb_total.
Qed.

(** Insertion sort, for any total preorder given by its strict part. *)
Section Insertion.
  Variable lt : val -> val -> bool.
  Variable P : val -> Prop.
  Definition le a b := lt b a = false.
  Hypothesis le_trans : forall a b c, P a -> P b -> P c -> le a b -> le b c -> le a c.
  Hypothesis le_total : forall a b, P a -> P b -> le a b \/ le b a.
  Hypothesis le_antisym : forall a b, P a -> P b -> le a b -> le b a -> a = b.
  Definition ge a b := le b a.

  Lemma insert_perm x l : Permutation (insert_rev lt x l) (x :: l).
  Proof.
    induction l as [|y l IH]; simpl; [auto|]. destruct (lt x y); auto.
    rewrite IH. apply perm_swap.
  Qed.
  Lemma insert_sorted x l : P x -> Forall P l -> StronglySorted ge l -> StronglySorted ge (insert_rev lt x l).
  Proof.
    intros Px F S. induction S as [|y l S IH A]; simpl; [repeat constructor|]. inversion F as [|? ? Py Fl]; subst.
    destruct (lt x y) eqn:E.
    - constructor; [now apply IH|]. rewrite Forall_forall. intros z I.
      apply (Permutation_in z (insert_perm x l)) in I. destruct I as [<-|I].
      + unfold ge, le. destruct (le_total x y Px Py) as [|H]; auto. unfold le in H. congruence.
      + rewrite Forall_forall in A. auto.
    - constructor; [now constructor|]. constructor; [exact E|]. rewrite Forall_forall in *. intros z I.
      specialize (A z I). unfold ge in *. eapply le_trans; [apply Fl; exact I|exact Py|exact Px|exact A|exact E].
  Qed.
  Lemma sort_rev_perm l : forall acc, Permutation (sort_rev lt acc l) (acc ++ l).
  Proof.
    induction l as [|x l IH]; intros acc; simpl; [now rewrite app_nil_r|].
    rewrite IH, insert_perm. simpl. apply Permutation_cons_app. reflexivity.
  Qed.
  Lemma sort_rev_sorted l : forall acc, Forall P l -> Forall P acc -> StronglySorted ge acc -> StronglySorted ge (sort_rev lt acc l).
  Proof.
    induction l as [|x l IH]; intros acc F Fa S; simpl; auto. inversion F; subst. apply IH; auto.
    - rewrite insert_perm. now constructor.
    - now apply insert_sorted.
  Qed.
  Lemma app_sorted (l m : list val) : StronglySorted le l -> StronglySorted le m ->
    (forall a b, In a l -> In b m -> le a b) -> StronglySorted le (l ++ m).
  Proof.
    induction 1 as [|x l S IH A]; intros Sm H; simpl; auto. constructor.
    - apply IH; auto. intros. apply H; simpl; auto.
    - apply Forall_app. split; auto. rewrite Forall_forall. intros b I. apply H; simpl; auto.
  Qed.
  Lemma rev_sorted (l : list val) : StronglySorted ge l -> StronglySorted le (rev l).
  Proof.
    induction 1 as [|x l S IH A]; simpl; [constructor|]. apply app_sorted; auto; [repeat constructor|].
    intros a b I [<-|[]]. apply in_rev in I. rewrite Forall_forall in A. now apply A.
  Qed.
  Lemma sort_slice_perm l : Permutation l (sort_slice lt l).
  Proof. unfold sort_slice. rewrite <- Permutation_rev. rewrite sort_rev_perm. reflexivity. Qed.
  Lemma sort_slice_sorted l : Forall P l -> StronglySorted le (sort_slice lt l).
  Proof. intros F. apply rev_sorted. apply sort_rev_sorted; auto; constructor. Qed.
  Lemma sorted_unique l : forall m, Forall P l -> StronglySorted le l -> StronglySorted le m -> Permutation l m -> l = m.
  Proof.
    induction l as [|x l IH]; intros m F S Sm Pm; [now apply Permutation_nil in Pm|].
    destruct m as [|y m]; [symmetry in Pm; apply Permutation_nil in Pm; discriminate|].
    inversion S as [|? ? S' A]; inversion Sm as [|? ? Sm' B]; inversion F as [|? ? Px Fl]; subst.
    assert (Fm : Forall P (y :: m)) by (rewrite <- Pm; auto). inversion Fm as [|? ? Py Fm']; subst.
    assert (x = y).
    { rewrite Forall_forall in A, B.
      assert (In y (x :: l)) as [|I] by (rewrite Pm; now left); [auto|].
      assert (In x (y :: m)) as [|J] by (rewrite <- Pm; now left); [auto|].
      apply le_antisym; auto. }
    subst y. f_equal. apply IH; auto. eapply Permutation_cons_inv; eauto.
  Qed.
End Insertion.

Lemma num_le_trans a b c : number a -> number b -> number c -> le val_less a b -> le val_less b c -> le val_less a c.
Proof. intros [x ->] [y ->] [z ->]. unfold le. simpl. rewrite !Z.ltb_ge. lia. Qed.
Lemma num_le_total a b : number a -> number b -> le val_less a b \/ le val_less b a.
Proof. intros [x ->] [y ->]. unfold le. simpl. rewrite !Z.ltb_ge. lia. Qed.
Lemma num_le_antisym a b : number a -> number b -> le val_less a b -> le val_less b a -> a = b.
Proof. intros [x ->] [y ->]. unfold le. simpl. rewrite !Z.ltb_ge. intros. f_equal. lia. Qed.
Lemma sym_le_trans a b c : symbol a -> symbol b -> symbol c -> le val_less a b -> le val_less b c -> le val_less a c.
Proof.
  intros [x ->] [y ->] [z ->]. unfold le. simpl. intros A B.
  destruct (str_ltb z x) eqn:C; auto. destruct (str_ltb x y) eqn:D.
  - pose proof (str_ltb_trans _ _ _ C D). congruence.
  - rewrite (str_ltb_total x y D A) in C. congruence.
Qed.
Lemma sym_le_total a b : symbol a -> symbol b -> le val_less a b \/ le val_less b a.
Proof.
  intros [x ->] [y ->]. unfold le. simpl. destruct (str_ltb y x) eqn:A; auto. right.
  destruct (str_ltb x y) eqn:B; auto. pose proof (str_ltb_trans _ _ _ A B) as C. now rewrite str_ltb_irrefl in C.
Qed.
Lemma sym_le_antisym a b : symbol a -> symbol b -> le val_less a b -> le val_less b a -> a = b.
Proof. intros [x ->] [y ->]. unfold le. simpl. intros A B. f_equal. now apply str_ltb_total. Qed.

(** Any list with the same elements in ascending order is the one sort builds:
    the algorithm inside sort.Slice cannot be observed. *)
Theorem sort_result_unique : forall xs ys,
  Forall number xs \/ Forall symbol xs ->
  Permutation xs ys -> StronglySorted (le val_less) ys -> ys = sort_slice val_less xs.
Proof.
  intros xs ys F Pm S. destruct F as [F|F].
  - eapply (sorted_unique val_less number); eauto using num_le_antisym.
    + now rewrite <- Pm.
    + apply (sort_slice_sorted val_less number); auto using num_le_total. apply num_le_trans.
    + rewrite <- Pm. apply sort_slice_perm.
  - eapply (sorted_unique val_less symbol); eauto using sym_le_antisym.
    + now rewrite <- Pm.
    + apply (sort_slice_sorted val_less symbol); auto using sym_le_total. apply sym_le_trans.
    + rewrite <- Pm. apply sort_slice_perm.
Qed.

Lemma map_sorted {A} (le1 : A -> A -> Prop) (f : A -> val) xs : (forall a b, le val_less (f a) (f b) <-> le1 a b) ->
  StronglySorted (le val_less) (map f xs) <-> StronglySorted le1 xs.
Proof.
  intros E. induction xs as [|x xs IH]; simpl; [split; constructor|].
  split; inversion 1; subst; constructor; try (now apply IH).
  - rewrite Forall_forall in *. intros y I. apply E. apply H3. now apply in_map.
  - rewrite Forall_forall in *. intros v I. apply in_map_iff in I. destruct I as (y & <- & I). apply E. auto.
Qed.
Lemma sort_prog_run x xs d w : (Forall number (x :: xs) \/ Forall symbol (x :: xs)) ->
  runs step d (sort_prog (x :: xs)) w (Ok (vlist (sort_slice val_less (x :: xs)))) w.
Proof.
  intros F. unfold sort_prog.
  replace (find _ xs) with (@None val).
  - destruct F as [F|F]; inversion F as [|? ? [n ->] _]; subst; apply runs_ret_.
  - symmetry. destruct (find _ xs) as [y|] eqn:E; auto. apply find_some in E. destruct E as [I N].
    destruct F as [F|F]; inversion F as [|? ? [n ->] Fl]; subst; rewrite Forall_forall in Fl;
      destruct (Fl y I) as [m ->]; discriminate.
Qed.
(** The sorted list: same elements, ascending, and the only such list. *)
Lemma sort_gen {A} (le1 : A -> A -> Prop) (f : A -> val) (inj : forall a b, f a = f b -> a = b)
  (Q : val -> Prop) (Qf : forall v, Q v <-> exists a, v = f a)
  (QQ : forall xs, Forall Q xs -> Forall number xs \/ Forall symbol xs)
  (LE : forall a b, le val_less (f a) (f b) <-> le1 a b)
  (ss : forall l, Forall Q l -> StronglySorted (le val_less) (sort_slice val_less l)) :
  forall ns e w, standard "sort" e w ->
  exists ms, Permutation ns ms /\ ascending le1 ms /\
    (forall ms', Permutation ns ms' -> ascending le1 ms' -> ms' = ms) /\
    gives (call_on "sort" [vlist (map f ns)]) e w (vlist (map f ms)).
Proof.
  intros ns e w S.
  assert (FQ : forall l, Forall Q (map f l)).
  { intros l. rewrite Forall_forall. intros v I. apply in_map_iff in I. destruct I as (a & <- & _). apply Qf. eauto. }
  assert (exists ms, sort_slice val_less (map f ns) = map f ms) as [ms M].
  { pose proof (sort_slice_perm val_less (map f ns)) as Pm. symmetry in Pm.
    apply Permutation_map_inv in Pm. destruct Pm as (ms & E & _). now exists ms. }
  assert (Pm : Permutation ns ms).
  { pose proof (sort_slice_perm val_less (map f ns)) as Pm. rewrite M in Pm.
    clear -Pm inj. apply Permutation_map_inv in Pm. destruct Pm as (ms' & E & Pm).
    replace ns with ms'; [now symmetry|]. revert ns E. clear Pm.
    induction ms' as [|x l IH]; intros [|y ns]; simpl; intros E; try discriminate; auto.
    injection E as EA EB. f_equal; auto. }
  assert (As : ascending le1 ms).
  { unfold ascending. rewrite <- (map_sorted le1 f ms LE), <- M. apply ss. apply FQ. }
  exists ms. split; [exact Pm|]. split; [exact As|]. split.
  - intros ms' Pm' As'. assert (map f ms' = map f ms) as E.
    { rewrite <- M. apply sort_result_unique; [apply QQ, FQ|now apply Permutation_map|]. now apply (map_sorted le1 f ms' LE). }
    clear -inj E. revert ms E. induction ms' as [|x l IH]; intros [|y ms]; simpl; intros E; try discriminate; auto.
    injection E as EA EB. f_equal; auto.
  - apply (gives_native _ BSort); auto. cbn [builtin_prog arg1]. rewrite cons_to_exprs_vlist.
    destruct ns as [|n ns]; [apply Permutation_nil in Pm; subst ms; apply runs_ret_|].
    rewrite <- M. cbn [map]. apply sort_prog_run. apply QQ. apply (FQ (n :: ns)).
Qed.
Theorem C33_sort_integers : forall ns e w, standard "sort" e w ->
  exists ms, Permutation ns ms /\ ascending Z.le ms /\
    (forall ms', Permutation ns ms' -> ascending Z.le ms' -> ms' = ms) /\
    gives (call_on "sort" [vlist (map VNum ns)]) e w (vlist (map VNum ms)).
Proof.
  apply (sort_gen Z.le VNum) with (Q := number); auto; try (intros; congruence).
  - intros v. unfold number, symbol. split; intros [n E]; eauto.
  - intros a b. unfold le. simpl. apply Z.ltb_ge.
  - intros l F. apply (sort_slice_sorted val_less number); auto using num_le_total. apply num_le_trans.
Qed.
Theorem C33_sort_symbols : forall ss e w, standard "sort" e w ->
  exists ts, Permutation ss ts /\ ascending bytes_le ts /\
    (forall ts', Permutation ss ts' -> ascending bytes_le ts' -> ts' = ts) /\
    gives (call_on "sort" [vlist (map VAtom ss)]) e w (vlist (map VAtom ts)).
Proof.
  apply (sort_gen bytes_le VAtom) with (Q := symbol); auto; try (intros; congruence).
  - intros v. unfold number, symbol. split; intros [n E]; eauto.
  - intros a b. unfold le. simpl. symmetry. apply bytes_le_iff.
  - intros l F. apply (sort_slice_sorted val_less symbol); auto using sym_le_total. apply sym_le_trans.
Qed.
(** Anything else is an error. *)
Theorem C33_sort_rejects : forall vs e w, standard "sort" e w ->
  (forall ns, vs <> [vlist (map VNum ns)]) -> (forall ss, vs <> [vlist (map VAtom ss)]) ->
  rejects (call_on "sort" vs) e w.
Proof.
  intros vs e w S NN NS.
  assert (exists er, runs step Inf (builtin_prog BSort vs e) w (Er er) w) as [er R].
  { destruct vs as [|v [|? ?]]; try (eexists; apply runs_raise_). cbn [builtin_prog arg1].
    destruct (is_conscell v); [|eexists; apply runs_raise_].
    destruct (cons_to_exprs v) as [l|] eqn:E; [|eexists; apply runs_raise_].
    apply cons_to_exprs_some in E. subst v. destruct l as [|x l]; [now destruct (NN [])|].
    unfold sort_prog. destruct (find _ l) as [y|] eqn:F; [eexists; apply runs_raise_|].
    pose proof (find_none _ _ F) as A. cbn beta in A.
    destruct x; try (eexists; apply runs_raise_).
    - assert (exists ss, l = map VAtom ss) as [ss ->]; [|now destruct (NS (s :: ss))].
      clear -A. induction l as [|y l IH]; [now exists []|].
      destruct IH as [ss ->]; [intros; apply A; simpl; auto|]. specialize (A y (or_introl eq_refl)).
      destruct y; try discriminate. now exists (s0 :: ss).
    - assert (exists ss, l = map VNum ss) as [ss ->]; [|now destruct (NN (n :: ss))].
      clear -A. induction l as [|y l IH]; [now exists []|].
      destruct IH as [ss ->]; [intros; apply A; simpl; auto|]. specialize (A y (or_introl eq_refl)).
      destruct y; try discriminate. now exists (n0 :: ss). }
  now apply (rejects_native _ BSort _ _ _ er).
Qed.
Example C33_example :
  gives (call_on "sort" [vlist (map VNum [3; 1; 2; 1])]) global_env demo (vlist (map VNum [1; 1; 2; 3])) /\
  gives (call_on "sort" [vlist (map VAtom ["b"; "ab"; "a"])]) global_env demo (vlist (map VAtom ["a"; "ab"; "b"])) /\
  rejects (call_on "sort" [vlist [VNum 1; VAtom "a"]]) global_env demo.
Proof.
  split; [exists 5%nat; split; [vm_compute; reflexivity|discriminate]|].
  split; [exists 5%nat; split; [vm_compute; reflexivity|discriminate]|].
  apply C33_sort_rejects; [now apply demo_standard| |]; intros [|? [|? [|? ?]]] E; rewrite ?vlist_cons in E; discriminate.
Qed.

(** ** C34 *)
(** Only the host's random source is consulted: nothing else changes. *)
Definition only_random (w w' : world) : Prop :=
  w_frames w' = w_frames w /\ w_next w' = w_next w /\ w_gensym w' = w_gensym w /\ w_out w' = w_out w /\
  w_stdin w' = w_stdin w /\ w_screen w' = w_screen w /\ w_host w' = w_host w.
Lemma set_nth_perm i b : forall l a, nth_error l i = Some a -> Permutation (a :: set_nth i b l) (b :: l).
Proof.
  induction i as [|i IH]; intros [|x l] a E; simpl in *; try discriminate.
  - injection E as ->. apply perm_swap.
  - rewrite perm_swap, (IH l a E). apply perm_swap.
Qed.
Lemma set_nth_other i j a l : i <> j -> nth_error (set_nth j a l) i = nth_error l i.
Proof.
  revert j l. induction i as [|i IH]; intros [|j] [|x l] N; simpl; auto; try congruence.
Qed.
Lemma set_nth_same j a : forall l b, nth_error l j = Some b -> nth_error (set_nth j a l) j = Some a.
Proof. induction j as [|j IH]; intros [|x l] b; simpl; try discriminate; auto. apply IH. Qed.
Lemma swap_perm i j l : Permutation l (swap i j l).
Proof.
  unfold swap. destruct (nth_error l i) as [a|] eqn:A; auto. destruct (nth_error l j) as [b|] eqn:B; auto.
  destruct (Nat.eq_dec i j) as [->|N].
  - assert (a = b) by congruence. subst b.
    pose proof (set_nth_perm j a l a A) as X. pose proof (set_nth_perm j a _ a (set_nth_same j a l a A)) as Y.
    apply Permutation_cons_inv in X, Y. rewrite Y, X. reflexivity.
  - pose proof (set_nth_perm j a l b B) as X.
    assert (nth_error (set_nth j a l) i = Some a) as A' by (rewrite set_nth_other; auto).
    pose proof (set_nth_perm i b _ a A') as Y.
    apply (Permutation_cons_inv (a := a)). rewrite Y, X. reflexivity.
Qed.
Lemma shuffle_run i : forall l d w, exists l' w',
  Permutation l l' /\ only_random w w' /\ runs step d (shuffle_loop i l) w (Ok l') w'.
Proof.
  induction i as [|i IH]; intros l d w.
  - exists l, w. split; auto. split; [repeat split|apply runs_ret_].
  - cbn [shuffle_loop].
    set (j := (h_rand (w_host w) (w_tick w) (Z.of_nat (S (S i))) mod Z.of_nat (S (S i)))%Z).
    destruct (IH (swap (S i) (Z.to_nat j) l) d (tick w)) as (l' & w' & Pm & O & R).
    exists l', w'. split; [etransitivity; [apply swap_perm|exact Pm]|]. split; [exact O|].
    eapply runs_op_; [reflexivity|exact R].
Qed.
Theorem C34_shuffle_permutes : forall xs e w, standard "shuffle" e w ->
  exists ys w', Permutation xs ys /\ only_random w w' /\
    evals (call_on "shuffle" [vlist xs]) e w (Ok (vlist ys)) w'.
Proof.
  intros xs e w S. destruct (shuffle_run (length xs - 1) xs Inf w) as (ys & w' & Pm & O & R).
  exists ys, w'. split; auto. split; auto. apply (ok_native _ BShuffle); auto. cbn [builtin_prog arg1]. rewrite cons_to_exprs_vlist.
  replace (is_conscell (vlist xs)) with true by (destruct xs; reflexivity).
  eapply runs_bind_ok; [exact R|]. apply runs_ret_.
Qed.
Theorem C34_shuffle_rejects : forall vs e w, standard "shuffle" e w ->
  (forall xs, vs <> [vlist xs]) -> rejects (call_on "shuffle" vs) e w.
Proof.
  intros vs e w S N.
  assert (exists er, runs step Inf (builtin_prog BShuffle vs e) w (Er er) w) as [er R].
  { destruct vs as [|v [|? ?]]; try (eexists; apply runs_raise_). cbn [builtin_prog arg1].
    destruct (is_conscell v); [|eexists; apply runs_raise_].
    destruct (cons_to_exprs v) as [l|] eqn:E; [|eexists; apply runs_raise_].
    apply cons_to_exprs_some in E. subst v. now destruct (N l). }
  now apply (rejects_native _ BShuffle _ _ _ er).
Qed.
(** The bound randint uses: the low 64 bits of the absolute value. *)
Definition randint_bound (n : Z) : Z := (Z.abs n mod 2 ^ 64)%Z.
Theorem C34_randint : forall n e w, standard "randint" e w -> (0 < n < 2 ^ 63)%Z ->
  exists r w', (0 <= r <= n - 1)%Z /\ only_random w w' /\
    evals (call_on "randint" [VNum n]) e w (Ok (VNum r)) w'.
Proof.
  intros n e w S N.
  assert (G : go_int n = n).
  { unfold go_int. rewrite Z.abs_eq by lia. rewrite Z.mod_small by lia.
    destruct (n <? 2 ^ 63)%Z eqn:E; auto. apply Z.ltb_ge in E. lia. }
  exists (h_rand (w_host w) (w_tick w) n mod n)%Z, (tick w).
  split; [pose proof (Z.mod_pos_bound (h_rand (w_host w) (w_tick w) n) n); lia|].
  split; [repeat split|]. apply (ok_native _ BRandint); auto.
  cbn [builtin_prog arg1]. rewrite G. replace (n =? 0)%Z with false by (symmetry; apply Z.eqb_neq; lia).
  replace (n <=? 0)%Z with false by (symmetry; apply Z.leb_gt; lia).
  eapply runs_op_; [reflexivity|]. apply runs_ret_.
Qed.
(** Outside that range: the same with the bound above, or a crash. *)
Theorem C34_randint_other : forall n e w, standard "randint" e w -> n <> 0%Z ->
  ((0 < randint_bound n < 2 ^ 63)%Z /\
     exists r w', (0 <= r < randint_bound n)%Z /\ only_random w w' /\
       evals (call_on "randint" [VNum n]) e w (Ok (VNum r)) w') \/
  ((randint_bound n = 0 \/ 2 ^ 63 <= randint_bound n)%Z /\ crashes (call_on "randint" [VNum n]) e w).
Proof.
  intros n e w S N. unfold randint_bound. pose proof (Z.mod_pos_bound (Z.abs n) (2 ^ 64)) as B.
  apply Z.eqb_neq in N. destruct (go_int n <=? 0)%Z eqn:L.
  - right. split.
    + unfold go_int in L. destruct (_ <? 2 ^ 63)%Z eqn:E; [apply Z.leb_le in L; lia|apply Z.ltb_ge in E; lia].
    + eapply (crashes_native _ BRandint); auto. cbn [builtin_prog arg1]. rewrite N, L.
      apply runs_panic. split; reflexivity.
  - left. assert (G : go_int n = (Z.abs n mod 2 ^ 64)%Z).
    { apply Z.leb_gt in L. unfold go_int in *. destruct (_ <? 2 ^ 63)%Z eqn:E; auto. lia. }
    assert ((Z.abs n mod 2 ^ 64 < 2 ^ 63)%Z).
    { rewrite <- G. unfold go_int. destruct (_ <? 2 ^ 63)%Z eqn:E; [now apply Z.ltb_lt|lia]. }
    apply Z.leb_gt in L. split; [lia|].
    exists (h_rand (w_host w) (w_tick w) (go_int n) mod (go_int n))%Z, (tick w).
    split; [rewrite <- G; apply Z.mod_pos_bound; auto|]. split; [repeat split|].
    apply (ok_native _ BRandint); auto.
    cbn [builtin_prog arg1]. rewrite N. replace (go_int n <=? 0)%Z with false by (symmetry; apply Z.leb_gt; lia).
    eapply runs_op_; [reflexivity|]. apply runs_ret_.
Qed.
Theorem C34_randint_rejects : forall vs e w, standard "randint" e w ->
  (forall n, vs = [VNum n] -> n = 0%Z) -> rejects (call_on "randint" vs) e w.
Proof.
  intros vs e w S N.
  assert (exists er, runs step Inf (builtin_prog BRandint vs e) w (Er er) w) as [er R].
  { destruct vs as [|[] [|? ?]]; try (eexists; apply runs_raise_). rewrite (N n eq_refl). eexists. apply runs_raise_. }
  now apply (rejects_native _ BRandint _ _ _ er).
Qed.
Definition dice_host : host :=
  MkHost (fun t _ => Z.of_N t) (fun _ _ => inl "no"%string) (fun _ _ => inl "no"%string)
         (fun _ => None) (fun _ => None) (fun _ => (80%Z, 24%Z)) (fun _ => [KeyPressed KeyEscape]%list)
         (fun s => s) (fun s => s) (fun _ => false) (fun _ => 1%Z).
Example C34_example :
  fst (run_call 9 Inf (CEval (call_on "shuffle" [vlist (map VNum [1; 2; 3; 4])]) global_env) (init_world dice_host []))
    = Ok (vlist (map VNum [3; 4; 2; 1])) /\
  fst (run_call 9 Inf (CEval (call_on "randint" [VNum 6]) global_env) (init_world dice_host [])) = Ok (VNum 0).
Proof. split; vm_compute; reflexivity. Qed.
