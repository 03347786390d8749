(** * Tail calls use constant stack (C24). *)
From Coq Require Import Lia.
From Verif.Model Require Import Base Syntax World Prog Lex Parse Meta Eval Builtins CoreSrc Main.
From Verif.Proofs Require Import Run Heap Rules Forms Natives.
From Verif.Props Require Import Control Errors.
From Verif.Spec Require Import Vocabulary.
Open Scope prog_scope.
Open Scope list_scope.

(** ** With less stack an evaluation either does the same or overflows. *)
Lemma interp_or_overflow {A} s1 s2 (p : prog A) :
  (forall c w, s1 c w = s2 c w \/ exists w', s1 c w = (Overflow, w')) ->
  forall w, interp s1 p w = interp s2 p w \/ exists w', interp s1 p w = (Overflow, w').
Proof.
  intros H. induction p as [a|er|s|c|B o k IH|c k IHk h IHh]; intros w; cbn [interp]; auto.
  - destruct (exec o w) as [b w1]. apply IH.
  - destruct (H c w) as [E|(w' & E)].
    + rewrite <- E. destruct (s1 c w) as [[] w1]; auto.
    + rewrite E. right. eexists. reflexivity.
Qed.
Lemma run_or_overflow f : forall d c w,
  run step f d c w = run step f Inf c w \/ exists w', run step f d c w = (Overflow, w').
Proof.
  induction f as [|f IH]; intros d c w; cbn [run]; [auto|].
  set (s1 := fun c' w' => match deeper d with Some d' => run step f d' c' w' | None => (Overflow, w') end).
  set (s2 := fun c' w' => match deeper Inf with Some d' => run step f d' c' w' | None => (Overflow, w') end).
  assert (H : forall c w, s1 c w = s2 c w \/ exists w', s1 c w = (Overflow, w')).
  { intros c1 w1. unfold s1, s2. cbn [deeper]. destruct (deeper d); [apply IH|right; eauto]. }
  destruct (interp_or_overflow s1 s2 (step c) H w) as [E|(w' & E)].
  - rewrite E. destruct (interp s2 (step c) w) as [[[v|c']|e|s|z| |] w1]; auto.
  - rewrite E. right. eexists. reflexivity.
Qed.
Theorem C24_same_or_overflow :
  forall n x e w r w', evals x e w r w' ->
    evals_in n x e w r w' \/ exists w'', evals_in n x e w Overflow w''.
Proof.
  intros n x e w r w' (f & E & S). destruct (run_or_overflow f (Fin n) (CEval x e) w) as [Q|(w'' & Q)].
  - left. exists f. rewrite Q. auto.
  - right. exists w'', f. split; auto. discriminate.
Qed.

(** ** Tail positions. *)
(** As [in_order], for successful evaluations, with [n] units of stack each. *)
Inductive in_order_in (n : nat) (e : env) : list val -> world -> list val -> world -> Prop :=
| ioi_nil w : in_order_in n e [] w [] w
| ioi_cons x xs w v w1 vs w' :
    evals_in n x e w (Ok v) w1 -> in_order_in n e xs w1 vs w' -> in_order_in n e (x :: xs) w (v :: vs) w'.
Inductive all_false_in (n : nat) (e : env) : list clause -> world -> world -> Prop :=
| afi_nil w : all_false_in n e [] w w
| afi_cons c cs w w1 w2 :
    evals_in n (c_test c) e w (Ok VNil) w1 -> all_false_in n e cs w1 w2 -> all_false_in n e (c :: cs) w w2.
Inductive binds_in (n : nat) (e : env) (i : positive) : list (string * val) -> world -> world -> Prop :=
| bi_nil w : binds_in n e i [] w w
| bi_cons s x bs w v w1 w2 :
    s <> "t" -> evals_in n x e w (Ok v) w1 ->
    binds_in n e i bs (set_frame i (fset s v (frame_at w1 i)) w1) w2 -> binds_in n e i ((s, x) :: bs) w w2.

Lemma ends_ev_ok n f x e q w v w1 r w' :
  evals_in n x e w (Ok v) w1 ->
  ends (Fin (S n)) (bind (ev_wrap f x e) q) w r w' <-> ends (Fin (S n)) (q v) w1 r w'.
Proof.
  intros E. rewrite ends_ev. split.
  - intros (r1 & w2 & N & X). destruct (calls_det _ _ _ _ _ _ _ _ E N) as [<- <-]. exact X.
  - intros X. exists (Ok v), w1. split; [exact E|exact X].
Qed.
Lemma runs_ev_ok {A} n f x e (q : val -> prog A) w v w1 r w' :
  evals_in n x e w (Ok v) w1 ->
  runs step (Fin (S n)) (bind (ev_wrap f x e) q) w r w' <-> runs step (Fin (S n)) (q v) w1 r w'.
Proof.
  intros E. rewrite runs_ev. split.
  - intros (r1 & w2 & N & X). destruct (calls_det _ _ _ _ _ _ _ _ E N) as [<- <-]. exact X.
  - intros X. exists (Ok v), w1. split; [exact E|exact X].
Qed.
Lemma ends_bind_ok {A} d (p : prog A) q w a w1 r w' :
  runs step d p w (Ok a) w1 -> ends d (bind p q) w r w' <-> ends d (q a) w1 r w'.
Proof.
  intros R. rewrite ends_bind. split.
  - intros (r1 & w2 & N & X). destruct (runs_det _ _ _ _ _ _ _ _ R N) as [<- <-]. exact X.
  - intros X. exists (Ok a), w1. split; auto.
Qed.
Lemma body_loop_tail n wrap e before x w us w1 r w' : forall ret,
  in_order_in n e before w us w1 ->
  ends (Fin (S n)) (body_loop wrap (vlist (before ++ [x])) ret e) w r w' <-> evals_in (S n) x e w1 r w'.
Proof.
  intros ret H. revert ret. induction H as [w|y ys w v w2 vs w3 E H IH]; intros ret; cbn [app].
  - rewrite vlist_cons, vlist_nil. cbn [body_loop]. apply ends_tail.
  - rewrite vlist_cons. destruct (ys ++ [x]) as [|z zs] eqn:Z; [destruct ys; discriminate|].
    rewrite vlist_cons. rewrite body_loop_cons, ends_ev_ok by eauto. rewrite <- vlist_cons. apply IH.
Qed.
Lemma ev_args_in n e xs w vs w1 :
  in_order_in n e xs w vs w1 -> runs step (Fin (S n)) (ev_args (vlist xs) e) w (Ok vs) w1.
Proof.
  induction 1 as [w|x xs w v w1 vs w2 E H IH].
  - rewrite vlist_nil. apply runs_ret_.
  - rewrite vlist_cons. cbn [ev_args]. apply (runs_ev_ok n _ _ _ _ _ v w1); auto.
    eapply runs_bind_ok; [exact IH|apply runs_ret_].
Qed.

(** The chosen form of a cond runs with the stack of the cond itself: if the
    tests need [n] units, then with [S n] units cond is its chosen form. *)
Theorem C24_cond_is_tail :
  forall n before c after e w w1 v w2,
    not_macro "cond" e w -> all_false_in n e before w w1 ->
    evals_in n (c_test c) e w1 (Ok v) w2 -> v <> VNil ->
    forall r w', evals_in (S n) (form "cond" (map clause_form (before ++ c :: after))) e w r w' <->
                 evals_in (S n) (c_form c) e w2 r w'.
Proof.
  intros n before c after e w w1 v w2 M AF E NV r w'. unfold evals_in, form.
  rewrite (evals_special _ _ SCond) by (auto using vlist_conscell). cbn [special]. clear M.
  apply is_nil_not in NV.
  induction AF as [w|c' cs w u1 u2 E1 AF IH]; cbn [app map]; rewrite vlist_cons; cbn [cond_loop clause_form].
  - rewrite ends_ev_ok by eauto. rewrite NV. apply ends_tail.
  - rewrite ends_ev_ok by eauto. cbn [is_nil]. now apply IH.
Qed.
Theorem C24_let_body_is_tail :
  forall n bs before x e w w1 us w2,
    not_macro "let" e w -> binds_in n e (w_next w) bs (with_frame [] w) w1 ->
    in_order_in n (new_env e w) before w1 us w2 ->
    forall r w', evals_in (S n) (VCons (VAtom "let") (VCons (vlist (map binding_form bs)) (vlist (before ++ [x])))) e w r w' <->
                 evals_in (S n) x (new_env e w) w2 r w'.
Proof.
  intros n bs before x e w w1 us w2 M BI IO r w'. unfold evals_in.
  rewrite (evals_special _ _ SLet) by auto. cbn [special]. unfold ev_let.
  rewrite !vlist_conscell. rewrite ends_op. cbn [exec]. rewrite in_new_mk. cbn [fst snd].
  rewrite (ends_bind_ok _ _ _ _ true w1); [eapply body_loop_tail; eauto|].
  assert (H : forall u, binds_in n e (w_next w) bs u w1 ->
    runs step (Fin (S n)) (let_bindings (vlist (map binding_form bs)) e (new_env e w)) u (Ok true) w1); [|apply H; exact BI].
  clear. intros u BI. induction BI as [u|s' x' bs u v u1 u2 NT E1 BI IH]; cbn [map].
  - rewrite vlist_nil. apply runs_ret_.
  - rewrite vlist_cons. cbn [let_bindings]. unfold binding_form at 1. vl.
    cbn [fst snd]. apply (runs_ev_ok n _ _ _ _ _ v u1); [exact E1|].
    apply runs_checked_bind. cbn [exec]. unfold env_set, new_env. apply String.eqb_neq in NT. rewrite NT.
    cbn [fst snd]. now apply IH.
Qed.
Theorem C24_function_body_is_tail :
  forall n f args e w ps rest before x doc m lenv w1 vs w2 bs us w3,
    a_call f e w ->
    evals_in n f e w (Ok (VLam ps rest (vlist (before ++ [x])) doc m lenv)) w1 ->
    in_order_in n e args w1 vs w2 -> ~ In "t" ps -> rest <> "t" -> bind_args ps rest vs = Some bs ->
    in_order_in n (new_env lenv w2) before (with_frame bs w2) us w3 ->
    forall r w', evals_in (S n) (VCons f (vlist args)) e w r w' <-> evals_in (S n) x (new_env lenv w2) w3 r w'.
Proof.
  intros n f args e w ps rest before x doc m lenv w1 vs w2 bs us w3 C EF IO T1 T2 B IO2 r w'.
  unfold evals_in. rewrite evals_call; [|apply vlist_conscell|exact C].
  unfold ev_call. rewrite ends_ev_ok by eauto.
  rewrite (ends_bind_ok _ _ _ _ vs w2) by (now apply ev_args_in).
  cbn [call_fn]. rewrite ends_op. cbn [exec]. rewrite in_new_mk. cbn [fst snd].
  rewrite (ends_bind_ok _ _ _ _ tt (with_frame bs w2)); [eapply body_loop_tail; eauto|].
  apply runs_map_err. exists (Ok tt). split; auto.
  apply set_lambda_args_ok with (bs := bs); auto. intros [X|X]; auto.
Qed.

(** ** A tail-recursive program counts to any n in a fixed stack; the same
    computation without tail calls needs stack in proportion to n. *)
Lemma native_in n g b args vs e w w1 v :
  denotes_native g b e w -> in_order_in n e args w vs w1 -> builtin_prog b vs e = Ret v ->
  evals_in (S n) (form g args) e w (Ok v) w1.
Proof.
  intros (O & L & B) IO P. unfold evals_in, form. rewrite evals_call; [|apply vlist_conscell|].
  - unfold ev_call. rewrite (ends_ev_ok n _ _ _ _ _ (VBuiltin b) w).
    + rewrite (ends_bind_ok _ _ _ _ vs w1) by (now apply ev_args_in). cbn [call_fn]. rewrite ends_sub.
      exists (Ok v), w1. split; [|now apply ends_val]. change (calls step (Fin n) (CBuiltin b vs e) w1 (Ok v) w1).
      apply calls_ends. cbn [step]. rewrite P. apply ends_val_, runs_ret_.
    + unfold evals_in. rewrite evals_nomacro by (intros; discriminate). cbn [dispatch].
      destruct O as (_ & C & T). rewrite C. apply ends_val_. unfold ev_atom. apply String.eqb_neq in T. rewrite T.
      apply runs_op. cbn [exec fst snd]. rewrite L, B. apply runs_ret_.
  - intros s E. injection E as <-. destruct O as (S & _). split; auto. unfold not_macro. now rewrite L.
Qed.
Lemma var_in n s e w v : ordinary s -> lookup e s w = Some v -> evals_in n (VAtom s) e w (Ok v) w.
Proof.
  intros (_ & C & T) L. unfold evals_in. rewrite evals_nomacro by (intros; discriminate). cbn [dispatch].
  rewrite C. apply ends_val_. unfold ev_atom. apply String.eqb_neq in T. rewrite T.
  apply runs_op. cbn [exec fst snd]. rewrite L. apply runs_ret_.
Qed.
Lemma t_in n e w : evals_in n (VAtom "t") e w (Ok VT) w.
Proof.
  unfold evals_in. rewrite evals_nomacro by (intros; discriminate). cbn [dispatch].
  apply ends_val_. apply runs_ret_.
Qed.
Lemma num_in n z e w : evals_in n (VNum z) e w (Ok (VNum z)) w.
Proof. unfold evals_in. rewrite evals_nomacro by (intros; discriminate). now apply ends_val. Qed.

Notation v_ := VAtom.
Definition count_clauses : list clause :=
  [Clause (form "=" [v_ "n"; VNum 0]) (v_ "acc") VNil;
   Clause (v_ "t") (form "count" [form "-" [v_ "n"; VNum 1]; form "+" [v_ "acc"; VNum 1]]) VNil].
(** (lambda (n acc) (cond ((= n 0) acc) (t (count (- n 1) (+ acc 1))))) *)
Definition count_fn : val :=
  VLam ["n"; "acc"] "" (vlist [form "cond" (map clause_form count_clauses)]) VNil false global_env.
Definition deep_clauses : list clause :=
  [Clause (form "=" [v_ "n"; VNum 0]) (VNum 0) VNil;
   Clause (v_ "t") (form "+" [VNum 1; form "deep" [form "-" [v_ "n"; VNum 1]]]) VNil].
(** (lambda (n) (cond ((= n 0) 0) (t (+ 1 (deep (- n 1)))))) *)
Definition deep_fn : val :=
  VLam ["n"] "" (vlist [form "cond" (map clause_form deep_clauses)]) VNil false global_env.

(** States in which the two functions are defined and the names they use are
    not rebound. *)
Definition defined (w : world) : Prop :=
  (1 < w_next w)%positive /\
  lookup global_env "count" w = Some count_fn /\ lookup global_env "deep" w = Some deep_fn /\
  forall s, In s ["="; "-"; "+"; "cond"] -> lookup global_env s w = None.
Lemma lookup_new bs w s :
  (1 < w_next w)%positive ->
  lookup (new_env global_env w) s (with_frame bs w) =
  match fget s (frame_of bs) with Some v => Some v | None => lookup global_env s w end.
Proof.
  intros L. unfold new_env, global_env. cbn [lookup].
  change (with_frame bs w) with (in_new w (frame_of bs)). rewrite !frame_at_in_new, Pos.eqb_refl.
  destruct (fget s (frame_of bs)); auto.
  destruct (Pos.eqb (w_next w) 1) eqn:E; auto. apply Pos.eqb_eq in E. lia.
Qed.
Lemma defined_frame bs w : defined w -> defined (with_frame bs w).
Proof.
  intros (L & C & D & N).
  assert (H : forall s, lookup global_env s (with_frame bs w) = lookup global_env s w).
  { intros s. unfold global_env. cbn [lookup]. change (with_frame bs w) with (in_new w (frame_of bs)).
    rewrite frame_at_in_new. destruct (Pos.eqb (w_next w) 1) eqn:E; auto. apply Pos.eqb_eq in E. lia. }
  split; [simpl; lia|]. rewrite !H. split; [auto|split; [auto|]]. intros s I. rewrite H. auto.
Qed.
Local Ltac ord := split; [reflexivity|split; [reflexivity|discriminate]].

Lemma count_body k : forall a e w bs,
  (1 < w_next w)%positive -> e = new_env global_env w ->
  bs = [("n", VNum (Z.of_nat k)); ("acc", VNum a)] ->
  defined w ->
  exists w', evals_in 2 (form "cond" (map clause_form count_clauses)) e (with_frame bs w)
               (Ok (VNum (Z.of_nat k + a))) w'.
Proof.
  induction k as [|k IH]; intros a e w bs L -> -> D; pose proof D as (_ & C & _ & N);
    set (e := new_env global_env w); set (w0 := with_frame _ w).
  all: assert (LN : forall s, In s ["="; "-"; "+"; "cond"; "count"] -> lookup e s w0 = lookup global_env s w).
  1,3: intros s I; unfold e, w0; rewrite lookup_new by auto; destruct I as [<-|[<-|[<-|[<-|[<-|[]]]]]]; reflexivity.
  all: assert (NV : forall s b, In s ["="; "-"; "+"] -> lookup_builtin s = Some b -> ordinary s -> denotes_native s b e w0).
  1,3: intros s b I B O; split; [auto|split; [|auto]]; rewrite LN, N; auto; destruct I as [<-|[<-|[<-|[]]]]; simpl; auto.
  all: assert (MC : not_macro "cond" e w0) by (unfold not_macro; rewrite LN, N; simpl; auto).
  all: assert (VN : forall n, evals_in n (v_ "n") e w0 (Ok (VNum (Z.of_nat _))) w0)
      by (intros n; apply var_in; [ord|unfold e, w0; rewrite lookup_new by auto; reflexivity]).
  all: assert (VA : forall n, evals_in n (v_ "acc") e w0 (Ok (VNum a)) w0)
      by (intros n; apply var_in; [ord|unfold e, w0; rewrite lookup_new by auto; reflexivity]).
  - exists w0. apply (C24_cond_is_tail 1 [] (Clause (form "=" [v_ "n"; VNum 0]) (v_ "acc") VNil)
      [Clause (v_ "t") (form "count" [form "-" [v_ "n"; VNum 1]; form "+" [v_ "acc"; VNum 1]]) VNil]
      e w0 w0 VT w0); auto; [constructor| |discriminate].
    apply native_in with (b := BEq) (vs := [VNum 0; VNum 0]); [apply NV; [simpl; auto|reflexivity|ord]| |reflexivity].
    econstructor; [apply VN|econstructor; [apply num_in|constructor]].
  - assert (E1 : evals_in 1 (form "=" [v_ "n"; VNum 0]) e w0 (Ok VNil) w0).
    { apply native_in with (b := BEq) (vs := [VNum (Z.of_nat (S k)); VNum 0]); [apply NV; [simpl; auto|reflexivity|ord]| |reflexivity].
      econstructor; [apply VN|econstructor; [apply num_in|constructor]]. }
    assert (E2 : evals_in 1 (form "-" [v_ "n"; VNum 1]) e w0 (Ok (VNum (Z.of_nat k))) w0).
    { apply native_in with (b := BSub) (vs := [VNum (Z.of_nat (S k)); VNum 1]); [apply NV; [simpl; auto|reflexivity|ord]| |].
      - econstructor; [apply VN|econstructor; [apply num_in|constructor]].
      - cbn [builtin_prog num_fold]. do 2 f_equal. lia. }
    assert (E3 : evals_in 1 (form "+" [v_ "acc"; VNum 1]) e w0 (Ok (VNum (a + 1))) w0).
    { apply native_in with (b := BAdd) (vs := [VNum a; VNum 1]); [apply NV; [simpl; auto|reflexivity|ord]| |reflexivity].
      econstructor; [apply VA|econstructor; [apply num_in|constructor]]. }
    destruct (IH (a + 1)%Z (new_env global_env w0) w0 [("n", VNum (Z.of_nat k)); ("acc", VNum (a + 1))]) as (w' & E);
      [simpl; lia|reflexivity|reflexivity|now apply defined_frame|].
    exists w'. replace (Z.of_nat (S k) + a)%Z with (Z.of_nat k + (a + 1))%Z by lia.
    apply (C24_cond_is_tail 1 [Clause (form "=" [v_ "n"; VNum 0]) (v_ "acc") VNil]
      (Clause (v_ "t") (form "count" [form "-" [v_ "n"; VNum 1]; form "+" [v_ "acc"; VNum 1]]) VNil) []
      e w0 w0 VT w0); auto; [|apply t_in|discriminate|].
    + econstructor; [exact E1|constructor].
    + cbn [c_form]. unfold form at 1.
      eapply (C24_function_body_is_tail 1 (v_ "count") [form "-" [v_ "n"; VNum 1]; form "+" [v_ "acc"; VNum 1]] e w0
                ["n"; "acc"] "" [] (form "cond" (map clause_form count_clauses)) VNil false global_env w0 _ w0); [| | | | | | |exact E].
      * intros s X. injection X as <-. split; [reflexivity|]. unfold not_macro. rewrite LN, C by (simpl; auto 6). exact I.
      * apply var_in; [ord|]. rewrite LN, C by (simpl; auto 6). reflexivity.
      * econstructor; [exact E2|econstructor; [exact E3|constructor]].
      * intros [X|[X|[]]]; discriminate.
      * discriminate.
      * reflexivity.
      * constructor.
Qed.
Theorem C24_tail_recursion_in_fixed_stack :
  forall (n : nat) a w, defined w ->
    exists w', evals_in 2 (form "count" [VNum (Z.of_nat n); VNum a]) global_env w (Ok (VNum (Z.of_nat n + a))) w'.
Proof.
  intros n a w D. pose proof D as (L & C & _ & N).
  destruct (count_body n a _ w _ L eq_refl eq_refl D) as (w' & E). exists w'.
  eapply (C24_function_body_is_tail 1 (v_ "count") [VNum (Z.of_nat n); VNum a] global_env w
                ["n"; "acc"] "" [] (form "cond" (map clause_form count_clauses)) VNil false global_env w _ w); [| | | | | | |exact E].
  - intros s X. injection X as <-. split; [reflexivity|]. unfold not_macro. rewrite C. exact I.
  - apply var_in; [ord|exact C].
  - econstructor; [apply num_in|econstructor; [apply num_in|constructor]].
  - intros [X|[X|[]]]; discriminate.
  - discriminate.
  - reflexivity.
  - constructor.
Qed.

Lemma evals_in_more n m x e w v w' : (n <= m)%nat -> evals_in n x e w (Ok v) w' -> evals_in m x e w (Ok v) w'.
Proof. intros L H. eapply calls_deeper; [|exact H|discriminate]. exact L. Qed.
Lemma evals_in_inf n x e w v w' : evals_in n x e w (Ok v) w' -> evals x e w (Ok v) w'.
Proof. intros H. eapply calls_deeper; [|exact H|discriminate]. exact I. Qed.

(** The environment in which the body of deep runs. *)
Lemma deep_env k w :
  defined w ->
  let e := new_env global_env w in let w0 := with_frame [("n", VNum k)] w in
  (forall s b, In s ["="; "-"; "+"] -> lookup_builtin s = Some b -> ordinary s -> denotes_native s b e w0) /\
  not_macro "cond" e w0 /\ lookup e "deep" w0 = Some deep_fn /\ (forall n, evals_in n (v_ "n") e w0 (Ok (VNum k)) w0) /\
  evals_in 1 (form "=" [v_ "n"; VNum 0]) e w0 (Ok (if (k =? 0)%Z then VT else VNil)) w0 /\
  evals_in 1 (form "-" [v_ "n"; VNum 1]) e w0 (Ok (VNum (k - 1))) w0.
Proof.
  intros D e w0. pose proof D as (L & _ & DP & N).
  assert (LN : forall s, In s ["="; "-"; "+"; "cond"; "deep"] -> lookup e s w0 = lookup global_env s w).
  { intros s I; unfold e, w0; rewrite lookup_new by auto; destruct I as [<-|[<-|[<-|[<-|[<-|[]]]]]]; reflexivity. }
  assert (NV : forall s b, In s ["="; "-"; "+"] -> lookup_builtin s = Some b -> ordinary s -> denotes_native s b e w0).
  { intros s b I B O; split; [auto|split; [|auto]]; rewrite LN, N; auto; destruct I as [<-|[<-|[<-|[]]]]; simpl; auto. }
  assert (VN : forall n, evals_in n (v_ "n") e w0 (Ok (VNum k)) w0).
  { intros n; apply var_in; [ord|unfold e, w0; rewrite lookup_new by auto; reflexivity]. }
  split; [exact NV|]. split; [unfold not_macro; rewrite LN, N; simpl; auto|].
  split; [rewrite LN by (simpl; auto 6); exact DP|]. split; [exact VN|]. split.
  - apply native_in with (b := BEq) (vs := [VNum k; VNum 0]); [apply NV; [simpl; auto|reflexivity|ord]| |].
    + econstructor; [apply VN|econstructor; [apply num_in|constructor]].
    + cbn [builtin_prog equal_fold val_equal]. destruct (k =? 0)%Z; reflexivity.
  - apply native_in with (b := BSub) (vs := [VNum k; VNum 1]); [apply NV; [simpl; auto|reflexivity|ord]| |reflexivity].
    econstructor; [apply VN|econstructor; [apply num_in|constructor]].
Qed.
Lemma deep_call n k w e x w1 r w' :
  ordinary "deep" -> lookup e "deep" w = Some deep_fn -> evals_in n x e w (Ok (VNum k)) w1 ->
  evals_in (S n) (form "deep" [x]) e w r w' <->
  evals_in (S n) (form "cond" (map clause_form deep_clauses)) (new_env global_env w1) (with_frame [("n", VNum k)] w1) r w'.
Proof.
  intros O L X.
  eapply (C24_function_body_is_tail n (v_ "deep") [x] e w ["n"] "" []
             (form "cond" (map clause_form deep_clauses)) VNil false global_env w [VNum k] w1).
  - intros s Q. injection Q as <-. split; [reflexivity|]. unfold not_macro. now rewrite L.
  - now apply var_in.
  - econstructor; [exact X|constructor].
  - intros [Q|[]]; discriminate.
  - discriminate.
  - reflexivity.
  - constructor.
Qed.
Lemma deep_body k : forall w, defined w ->
  exists w', evals_in (k + 2) (form "cond" (map clause_form deep_clauses)) (new_env global_env w)
               (with_frame [("n", VNum (Z.of_nat k))] w) (Ok (VNum (Z.of_nat k))) w' /\ defined w'.
Proof.
  induction k as [|k IH]; intros w D.
  - destruct (deep_env 0 w D) as (NV & MC & _ & VN & E1 & E2).
    exists (with_frame [("n", VNum 0)] w). split; [|now apply defined_frame].
    apply (C24_cond_is_tail 1 [] (Clause (form "=" [v_ "n"; VNum 0]) (VNum 0) VNil)
      [Clause (v_ "t") (form "+" [VNum 1; form "deep" [form "-" [v_ "n"; VNum 1]]]) VNil]
      _ _ (with_frame [("n", VNum 0)] w) VT (with_frame [("n", VNum 0)] w)); auto; [constructor|discriminate|].
    apply num_in.
  - destruct (deep_env (Z.of_nat (S k)) w D) as (NV & MC & LD & VN & E1 & E2).
    set (e := new_env global_env w) in *. set (w0 := with_frame _ w) in *.
    assert (D0 : defined w0) by now apply defined_frame.
    destruct (IH w0 D0) as (w' & E & D'). exists w'. split; auto.
    assert (Z1 : (Z.of_nat (S k) =? 0)%Z = false) by (apply Z.eqb_neq; lia). rewrite Z1 in E1.
    replace (Z.of_nat (S k) - 1)%Z with (Z.of_nat k) in E2 by lia.
    change (S k + 2) with (S (k + 2)).
    apply (C24_cond_is_tail (k + 2) [Clause (form "=" [v_ "n"; VNum 0]) (VNum 0) VNil]
      (Clause (v_ "t") (form "+" [VNum 1; form "deep" [form "-" [v_ "n"; VNum 1]]]) VNil) []
      e w0 w0 VT w0); auto; [|apply t_in|discriminate|].
    + econstructor; [eapply evals_in_more; [|exact E1]; lia|constructor].
    + apply native_in with (b := BAdd) (vs := [VNum 1; VNum (Z.of_nat k)]).
      * apply NV; [simpl; auto|reflexivity|ord].
      * econstructor; [apply num_in|econstructor; [|constructor]].
        replace (k + 2)%nat with (S (k + 1)) by lia. apply (deep_call (k + 1) (Z.of_nat k) w0 e _ w0).
        -- ord.
        -- exact LD.
        -- eapply evals_in_more; [|exact E2]; lia.
        -- replace (S (k + 1)) with (k + 2)%nat by lia. exact E.
      * cbn [builtin_prog num_fold]. do 2 f_equal. lia.
Qed.
(** Recursion depth n needs no more than n + 2 units of stack ... *)
Theorem C24_recursion_needs_at_most :
  forall (n : nat) w, defined w ->
    exists w', evals_in (n + 2) (form "deep" [VNum (Z.of_nat n)]) global_env w (Ok (VNum (Z.of_nat n))) w'.
Proof.
  intros n w D. destruct (deep_body n w D) as (w' & E & _). exists w'.
  replace (n + 2)%nat with (S (n + 1)) in * by lia. apply (deep_call (n + 1) (Z.of_nat n) w global_env _ w); auto.
  - ord.
  - apply D.
  - apply num_in.
Qed.

Lemma ends_ev_inv d f x e q w v w' :
  ends (Fin d) (bind (ev_wrap f x e) q) w (Ok v) w' ->
  exists d' u w1, d = S d' /\ evals_in d' x e w (Ok u) w1 /\ ends (Fin d) (q u) w1 (Ok v) w'.
Proof.
  rewrite ends_ev. intros (r1 & w1 & N & X). destruct d as [|d].
  - destruct N as [-> ->]. destruct X. discriminate.
  - destruct r1 as [u| | | | |]; try (destruct X; discriminate). exists d, u, w1. auto.
Qed.
Lemma ev_args2_inv d x y e q w v w' :
  ends (Fin (S d)) (bind (ev_args (vlist [x; y]) e) q) w (Ok v) w' ->
  exists a w1 b w2, evals_in d x e w (Ok a) w1 /\ evals_in d y e w1 (Ok b) w2.
Proof.
  rewrite ends_bind. intros (r & w1 & R & X). destruct r as [vs| | | | |]; try (destruct X; discriminate).
  rewrite vlist_cons in R. cbn [ev_args] in R. apply runs_ev in R. destruct R as (r1 & u1 & N1 & R).
  destruct r1 as [a| | | | |]; try (destruct R; discriminate).
  apply runs_bind in R. destruct R as (r2 & u2 & R & _R). destruct r2 as [ws| | | | |]; try (destruct _R; discriminate).
  rewrite vlist_cons in R. cbn [ev_args] in R. apply runs_ev in R. destruct R as (r3 & u3 & N3 & R).
  destruct r3 as [b| | | | |]; try (destruct R; discriminate).
  exists a, u1, b, u3. auto.
Qed.
Lemma deep_lower k : forall d e w x w1 v w',
  lookup e "deep" w = Some deep_fn -> evals x e w (Ok (VNum (Z.of_nat k))) w1 -> defined w1 ->
  evals_in d (form "deep" [x]) e w (Ok v) w' -> (k < d)%nat.
Proof.
  induction k as [|k IH]; intros d e w x w1 v w' L X D H.
  - destruct d as [|d]; [|lia]. unfold evals_in, form in H. rewrite evals_call in H.
    + unfold ev_call in H. apply ends_ev_inv in H. destruct H as (d' & _ & _ & Q & _). discriminate.
    + reflexivity.
    + intros s Q. injection Q as <-. split; [reflexivity|]. unfold not_macro. now rewrite L.
  - destruct d as [|d].
    { unfold evals_in, form in H. rewrite evals_call in H.
      + unfold ev_call in H. apply ends_ev_inv in H. destruct H as (d' & _ & _ & Q & _). discriminate.
      + reflexivity.
      + intros s Q. injection Q as <-. split; [reflexivity|]. unfold not_macro. now rewrite L. }
    (* the argument must have been evaluated in d units *)
    assert (XA : evals_in d x e w (Ok (VNum (Z.of_nat (S k)))) w1).
    { pose proof H as H1. unfold evals_in, form in H1. rewrite evals_call in H1.
      - unfold ev_call in H1. apply ends_ev_inv in H1. destruct H1 as (d' & u & w2 & Q & E & H1).
        injection Q as <-.
        assert (V : evals_in d (v_ "deep") e w (Ok deep_fn) w) by (apply var_in; [ord|exact L]).
        destruct (calls_det _ _ _ _ _ _ _ _ V E) as [Q <-]. injection Q as <-.
        rewrite ends_bind in H1. destruct H1 as (r & u & R & Y). destruct r as [vs| | | | |]; try (destruct Y; discriminate).
        rewrite vlist_cons in R. cbn [ev_args] in R. apply runs_ev in R. destruct R as (r1 & u1 & N1 & R).
        destruct r1 as [a| | | | |]; try (destruct R; discriminate).
        assert (E2 : evals_in d x e w (Ok a) u1) by exact N1.
        destruct (evals_det _ _ _ _ _ _ _ X (evals_in_inf _ _ _ _ _ _ E2)) as [Q <-]. injection Q as <-. exact E2.
      - reflexivity.
      - intros s Q. injection Q as <-. split; [reflexivity|]. unfold not_macro. now rewrite L. }
    apply (deep_call d (Z.of_nat (S k)) w e x w1) in H; auto; [|ord].
    destruct (deep_env (Z.of_nat (S k)) w1 D) as (NV & MC & LD & VN & E1 & E2).
    set (e0 := new_env global_env w1) in *. set (w0 := with_frame _ w1) in *.
    assert (D0 : defined w0) by now apply defined_frame.
    assert (Z1 : (Z.of_nat (S k) =? 0)%Z = false) by (apply Z.eqb_neq; lia). rewrite Z1 in E1.
    replace (Z.of_nat (S k) - 1)%Z with (Z.of_nat k) in E2 by lia.
    unfold evals_in, form at 1 in H. rewrite (evals_special _ _ SCond) in H by (auto using vlist_conscell). cbn [special] in H.
    unfold deep_clauses in H. cbn [map] in H. rewrite !vlist_cons in H. cbn [cond_loop clause_form c_test c_form] in H.
    apply ends_ev_inv in H. destruct H as (d1 & u & u1 & Q & T1 & H). injection Q as <-.
    destruct (evals_det _ _ _ _ _ _ _ (evals_in_inf _ _ _ _ _ _ E1) (evals_in_inf _ _ _ _ _ _ T1)) as [Q <-].
    injection Q as <-. cbn [is_nil] in H.
    apply ends_ev_inv in H. destruct H as (d1 & u & u1 & Q & T2 & H). injection Q as <-.
    destruct (calls_det _ _ _ _ _ _ _ _ (t_in d e0 w0) T2) as [Q <-].
    injection Q as <-. cbn [is_nil VT] in H. apply ends_tail in H.
    unfold form at 1 in H. rewrite evals_call in H.
    + unfold ev_call in H. apply ends_ev_inv in H. destruct H as (d1 & u & u1 & Q & T3 & H). injection Q as <-.
      destruct (NV "+" BAdd) as (O3 & L3 & B3); [simpl; auto|reflexivity|ord|].
      assert (u1 = w0).
      { apply evals_in_inf, evals_atom in T3. apply T3. }
      subst u1. apply ev_args2_inv in H. destruct H as (a & y1 & b & y2 & A1 & A2).
      destruct (calls_det _ _ _ _ _ _ _ _ (num_in d 1 e0 w0) A1) as [_ <-].
      assert (k < d)%nat; [|lia].
      apply (IH d e0 w0 (form "-" [v_ "n"; VNum 1]) w0 b y2); auto. apply (evals_in_inf 1). exact E2.
    + reflexivity.
    + intros s Q. injection Q as <-. split; [reflexivity|]. unfold not_macro.
      destruct (NV "+" BAdd) as (O3 & L3 & B3); [simpl; auto|reflexivity|ord|]. now rewrite L3.
Qed.
(** ... and no stack of at most n units is enough: the process dies. *)
Theorem C24_recursion_overflows :
  forall (n d : nat) w, defined w -> (d <= n)%nat ->
    exists w', evals_in d (form "deep" [VNum (Z.of_nat n)]) global_env w Overflow w'.
Proof.
  intros n d w D L. destruct (C24_recursion_needs_at_most n w D) as (w1 & E).
  destruct (C24_same_or_overflow d _ _ _ _ _ (evals_in_inf _ _ _ _ _ _ E)) as [H|H]; [|exact H].
  apply (deep_lower n d global_env w (VNum (Z.of_nat n)) w) in H; auto; [lia|apply D|now apply evals_num].
Qed.
(** The two functions are what these definitions create at top level. *)
Example C24_example :
  exists w1 w2,
    evals (form "defn" [v_ "count"; vlist [v_ "n"; v_ "acc"]; form "cond" (map clause_form count_clauses)]) global_env demo (Ok VNil) w1 /\
    evals (form "defn" [v_ "deep"; vlist [v_ "n"]; form "cond" (map clause_form deep_clauses)]) global_env w1 (Ok VNil) w2 /\
    defined w2.
Proof.
  do 2 eexists. split; [|split].
  - exists 20%nat; split; [vm_compute; reflexivity|discriminate].
  - exists 20%nat; split; [vm_compute; reflexivity|discriminate].
  - split; [reflexivity|]. split; [reflexivity|]. split; [reflexivity|].
    intros s [<-|[<-|[<-|[<-|[]]]]]; reflexivity.
Qed.
