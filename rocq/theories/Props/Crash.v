(** * Crash: property C26, which arguments make a native function crash the process. *)
From Coq Require Import Lia.
From Verif.Model Require Import Base Syntax World Prog Lex Parse Meta Eval Builtins.
From Verif.Spec Require Import Vocabulary Reader.
From Verif.Proofs Require Import Run Rules Forms Natives ParseFacts LexFacts.
Open Scope list_scope.

(** ** Specification *)
(** The native functions that neither evaluate nor call anything, nor exit. *)
Definition self_contained : list string :=
  ["+"; "-"; "*"; "/"; "="; "rem"; "<"; "<="; ">"; ">="; "atom?"; "body"; "car"; "cdr"; "cons"; "doc"; "downcase";
   "fuse"; "gensym"; "isqrt"; "len"; "list"; "list?"; "not"; "number?"; "print"; "println"; "printl"; "randint";
   "readlist"; "screen-start"; "screen-end"; "screen-size"; "screen-clear"; "screen-get-key"; "screen-write";
   "shell"; "shuffle"; "sleep"; "sort"; "source"; "split"; "upcase"; "version"]%string.
(** A pair chain that does not end in (). *)
Definition improper (l : val) : Prop := (exists a d, l = VCons a d) /\ forall xs, l <> vlist xs.
(** The arguments (and, for readlist, the line waiting on standard input) that
    crash the process. *)
Inductive crash_arguments (w : world) : string -> list val -> Prop :=
| crash_isqrt n : (n < 0)%Z -> crash_arguments w "isqrt" [VNum n]
| crash_len l : improper l -> crash_arguments w "len" [l]
| crash_fuse l : improper l -> crash_arguments w "fuse" [l]
| crash_randint n : n <> 0%Z -> (Z.abs n mod 2 ^ 64 = 0 \/ 2 ^ 63 <= Z.abs n mod 2 ^ 64)%Z -> crash_arguments w "randint" [VNum n]
| crash_readlist line args : fst (read_line "" (w_stdin w)) = Line line -> read line = PPanic ->
    crash_arguments w "readlist" args.

(** ** Programs that cannot crash *)
Inductive quiet {A} : prog A -> Prop :=
| quiet_ret a : quiet (Ret a)
| quiet_raise e : quiet (Raise e)
| quiet_op {B} (o : op B) k : (forall b, quiet (k b)) -> quiet (Op o k).
Lemma quiet_fail {A} s : quiet (@fail A s).
Proof. constructor. Qed.
Lemma quiet_bind {A B} (p : prog A) (q : A -> prog B) : quiet p -> (forall a, quiet (q a)) -> quiet (bind p q).
Proof.
  induction 1 as [a|e|C o k H IH]; intros Q; [exact (Q a)|apply (quiet_raise e)|].
  apply (quiet_op o (fun b => bind (k b) q)). auto.
Qed.
Lemma quiet_map_err {A} g (p : prog A) : quiet p -> quiet (map_err g p).
Proof.
  induction 1 as [a|e|C o k H IH]; [apply (quiet_ret a)|apply (quiet_raise (g e))|].
  apply (quiet_op o (fun b => map_err g (k b))). auto.
Qed.
Lemma quiet_runs {A} (p : prog A) : quiet p -> forall d w, exists r w', runs step d p w r w' /\ (is_ok r \/ is_er r).
Proof.
  induction 1 as [a|e|B o k _ IH]; intros d w.
  - exists (Ok a), w. split; [now apply runs_ret|left; now exists a].
  - exists (Er e), w. split; [now apply runs_raise|right; now exists e].
  - destruct (IH (fst (exec o w)) d (snd (exec o w))) as (r & w' & R & K). exists r, w'. split; auto. now apply runs_op.
Qed.
Lemma quiet_arg1 msg args (f : val -> prog val) : (forall x, args = [x] -> quiet (f x)) -> quiet (arg1 msg args f).
Proof. intros H. destruct args as [|x [|? ?]]; cbn; auto using quiet_fail. Qed.
Lemma quiet_num_fold f args : forall acc, quiet (num_fold f acc args).
Proof. induction args as [|v args IH]; intros acc; [constructor|]. destruct v; cbn [num_fold]; auto; constructor. Qed.
Lemma quiet_div_fold args : forall acc, quiet (div_fold acc args).
Proof.
  induction args as [|v args IH]; intros acc; [constructor|]. destruct v; cbn [div_fold]; try constructor.
  destruct (n =? 0)%Z; [constructor|auto].
Qed.
Lemma quiet_compare_fold f args : forall acc, quiet (compare_fold f acc args).
Proof.
  induction args as [|v args IH]; intros acc; [constructor|]. destruct v; cbn [compare_fold]; try constructor.
  destruct (f acc n); [auto|constructor].
Qed.
Lemma quiet_compare f args : quiet (compare_nums f args).
Proof. destruct args as [|[] args]; cbn [compare_nums]; try constructor. apply quiet_compare_fold. Qed.
Lemma quiet_draw f : forall x y s, quiet (draw_runes f x y s).
Proof.
  induction f as [|f IH]; intros x y s; cbn [draw_runes]; [constructor|]. destruct s; [constructor|].
  destruct (first_rune _). constructor. intros w. destruct (w =? 0)%Z; constructor; auto.
Qed.
Lemma quiet_shuffle i : forall l, quiet (shuffle_loop i l).
Proof. induction i as [|i IH]; intros l; cbn [shuffle_loop]; constructor. auto. Qed.
Lemma quiet_sort l : quiet (sort_prog l).
Proof. destruct l as [|x l]; cbn [sort_prog]; [constructor|]. destruct (find _ l); [constructor|]. destruct x; constructor. Qed.
Lemma quiet_print s : quiet (print s).
Proof. constructor. intros []. constructor. Qed.
Ltac qt :=
  cbn [builtin_prog arg1];
  repeat first [apply quiet_arg1; intros ? _ | apply quiet_bind; [|intros] | apply quiet_map_err
    | apply quiet_num_fold | apply quiet_div_fold | apply quiet_compare | apply quiet_shuffle | apply quiet_sort | apply quiet_print
    | apply quiet_fail | apply quiet_ret | apply quiet_raise | apply quiet_op; intros
    | match goal with |- quiet (match ?x with _ => _ end) => destruct x end ].
Lemma quiet_screen :
  quiet term_start /\ quiet term_end /\ quiet term_size /\ quiet term_clear /\ quiet term_get_key /\ forall x y s, quiet (term_draw x y s).
Proof. repeat split; intros; unfold term_start, term_end, term_size, term_clear, term_get_key, term_draw; qt; apply quiet_draw. Qed.

(** A simple sufficient form of the statement, per function. *)
Definition behaves (g : string) (b : builtin) : Prop := forall vs e w,
  (crash_arguments w g vs /\ exists m w', runs step Inf (builtin_prog b vs e) w (Panicked m) w') \/
  (~ crash_arguments w g vs /\ exists r w', runs step Inf (builtin_prog b vs e) w r w' /\ (is_ok r \/ is_er r)).
Lemma behaves_quiet g b : ~ In g ["isqrt"; "len"; "fuse"; "randint"; "readlist"]%string ->
  (forall vs e, quiet (builtin_prog b vs e)) -> behaves g b.
Proof.
  intros N Q vs e w. right. split; [|now apply quiet_runs].
  intros C. apply N. inversion C; subst; simpl; tauto.
Qed.
Lemma improper_none l : (exists a d, l = VCons a d) -> (improper l <-> cons_to_exprs l = None).
Proof. intros C. unfold improper. rewrite cons_to_exprs_none. tauto. Qed.
Lemma fuse_none l : fuse_text l = None <-> cons_to_exprs l = None.
Proof.
  induction l as [| | |a _ d IH| |]; cbn [fuse_text cons_to_exprs]; try tauto; try (split; congruence).
  destruct (fuse_text d), (cons_to_exprs d); split; intros H; try discriminate; try tauto; exfalso; intuition discriminate.
Qed.
Lemma behaves_isqrt : behaves "isqrt" BIsqrt.
Proof.
  intros vs e w. destruct vs as [|x [|y vs]]; [right; split; [intros C; inversion C|apply quiet_runs; qt]| |
    right; split; [intros C; inversion C|apply quiet_runs; qt]].
  destruct x as [|n| | | |]; try (right; split; [intros C; inversion C|apply quiet_runs; qt]; fail).
  cbn [builtin_prog arg1]. destruct (n <? 0)%Z eqn:E.
  - apply Z.ltb_lt in E. left. split; [now constructor|]. do 2 eexists. now apply runs_panic.
  - apply Z.ltb_ge in E. right. split; [intros C; inversion C; lia|]. apply quiet_runs. qt.
Qed.
Lemma behaves_randint : behaves "randint" BRandint.
Proof.
  intros vs e w. destruct vs as [|x [|y vs]]; [right; split; [intros C; inversion C|apply quiet_runs; qt]| |
    right; split; [intros C; inversion C|apply quiet_runs; qt]].
  destruct x as [|n| | | |]; try (right; split; [intros C; inversion C|apply quiet_runs; qt]; fail).
  cbn [builtin_prog arg1].
  destruct (n =? 0)%Z eqn:E0; [apply Z.eqb_eq in E0; subst; right; split; [intros C; inversion C; congruence|apply quiet_runs; qt]|].
  apply Z.eqb_neq in E0.
  assert (R : (0 <= Z.abs n mod 2 ^ 64 < 2 ^ 64)%Z) by (apply Z.mod_pos_bound; reflexivity).
  destruct (go_int n <=? 0)%Z eqn:E; [apply Z.leb_le in E|apply Z.leb_gt in E]; unfold go_int in E; cbv zeta in E;
    destruct (Z.abs n mod 2 ^ 64 <? 2 ^ 63)%Z eqn:L; try apply Z.ltb_lt in L; try apply Z.ltb_ge in L.
  - left. split; [apply crash_randint; [auto|left; lia]|]. do 2 eexists. now apply runs_panic.
  - left. split; [apply crash_randint; [auto|right; lia]|]. do 2 eexists. now apply runs_panic.
  - right. split; [intros C; inversion C; lia|]. apply quiet_runs. qt.
  - lia.
Qed.
Lemma behaves_len : behaves "len" BLen.
Proof.
  intros vs e w. destruct vs as [|x [|y vs]]; [right; split; [intros C; inversion C|apply quiet_runs; qt]| |
    right; split; [intros C; inversion C|apply quiet_runs; qt]].
  destruct x as [| | |a d| |];
    try (right; split; [intros C; inversion C as [|? I| | |]; destruct I as [(a & d & X) _]; discriminate X|apply quiet_runs; qt]; fail).
  pose proof (improper_none (VCons a d) ltac:(eauto)) as I.
  cbn [builtin_prog arg1 is_conscell]. destruct (cons_to_exprs (VCons a d)) eqn:E.
  - right. split; [intros C; inversion C as [|? I'| | |]; subst; apply I in I'; discriminate|apply quiet_runs; qt].
  - left. split; [constructor; now apply I|]. do 2 eexists. now apply runs_panic.
Qed.
Lemma behaves_fuse : behaves "fuse" BFuse.
Proof.
  intros vs e w. destruct vs as [|x [|y vs]]; [right; split; [intros C; inversion C|apply quiet_runs; qt]| |
    right; split; [intros C; inversion C|apply quiet_runs; qt]].
  destruct x as [| | |a d| |];
    try (right; split; [intros C; inversion C as [| |? I| |]; destruct I as [(a & d & X) _]; discriminate X|apply quiet_runs; qt]; fail).
  pose proof (improper_none (VCons a d) ltac:(eauto)) as I.
  cbn [builtin_prog arg1]. destruct (fuse_text (VCons a d)) eqn:E.
  - right. split; [|apply quiet_runs; qt].
    intros C; inversion C as [| |? I'| |]; subst. apply I in I'. apply fuse_none in I'. congruence.
  - left. split; [constructor; apply I, fuse_none, E|]. do 2 eexists. now apply runs_panic.
Qed.
Lemma behaves_readlist : behaves "readlist" BReadlist.
Proof.
  intros vs e w. cbn [builtin_prog].
  destruct (read_line "" (w_stdin w)) as [r rest] eqn:RL.
  assert (X : forall p r' w', runs step Inf (p r) (set_stdin rest w) r' w' -> runs step Inf (Op OReadLine p : prog val) w r' w').
  { intros p r' w' H. apply runs_op. cbn [exec]. now rewrite RL. }
  destruct r as [line|].
  - pose proof (read_no_fuel line) as NF. change (lex_and_parse (split_on ch_lf line)) with (read line) in *.
    assert (Y : forall vs, crash_arguments w "readlist" vs <-> read line = PPanic).
    { intros us. split; intros C; [inversion C; subst|apply crash_readlist with (line := line)]; rewrite ?RL in *; cbn [fst] in *; congruence. }
    destruct (read line) eqn:R.
    + right. split; [rewrite Y; discriminate|]. do 2 eexists. split; [apply X; change (lex_and_parse (split_on ch_lf line)) with (read line); rewrite R; cbn; now apply runs_ret|].
      left. eexists; reflexivity.
    + right. split; [rewrite Y; discriminate|]. do 2 eexists. split; [apply X; change (lex_and_parse (split_on ch_lf line)) with (read line); rewrite R; cbn; now apply runs_raise|].
      right. eexists; reflexivity.
    + left. split; [now apply Y|]. do 2 eexists. apply X. change (lex_and_parse (split_on ch_lf line)) with (read line). rewrite R. cbn. now apply runs_panic.
    + congruence.
  - right. split; [intros C; inversion C; subst; rewrite RL in *; discriminate|].
    do 2 eexists. split; [apply X; now apply runs_raise|]. right. eexists; reflexivity.
Qed.
Lemma native_behaves g : In g self_contained -> exists b, is_native g b = true /\ behaves g b.
Proof.
  pose proof quiet_screen as (Q1 & Q2 & Q3 & Q4 & Q5 & Q6).
  intros H. unfold self_contained in H. cbn [In] in H.
  repeat (destruct H as [<-|H]; [
    first [ exists BIsqrt; split; [reflexivity|exact behaves_isqrt] | exists BRandint; split; [reflexivity|exact behaves_randint]
          | exists BLen; split; [reflexivity|exact behaves_len] | exists BFuse; split; [reflexivity|exact behaves_fuse]
          | exists BReadlist; split; [reflexivity|exact behaves_readlist]
          | match goal with |- exists b, is_native ?g b = true /\ _ =>
              let o := eval vm_compute in (lookup_builtin g) in
              match o with Some ?b => exists b; split; [reflexivity|apply behaves_quiet; [simpl; intuition discriminate|intros vs e]] end end ]|]);
  [..|destruct H]; try (qt; fail); qt; auto; try apply quiet_draw. unfold do_shell. qt.
Qed.
(** Each of these functions, on any arguments, returns a value or an error, or
    crashes; it crashes exactly on the arguments listed. *)
Theorem C26_crash_arguments : forall g vs e w, In g self_contained -> standard g e w ->
  exists r w', evals (call_on g vs) e w r w' /\
    (is_ok r \/ is_er r \/ exists m, r = Panicked m) /\
    ((exists m, r = Panicked m) <-> crash_arguments w g vs).
Proof.
  intros g vs e w I S. destruct (native_behaves g I) as (b & N & B).
  destruct (B vs e w) as [(C & m & w' & R)|(NC & r & w' & R & K)].
  - exists (Panicked m), w'. split; [apply (call_on_iff g b); auto; now exists (Panicked m)|]. split; [eauto|]. split; [auto|eauto].
  - exists (with_context (builtin_ctx b) r), w'. split; [apply (call_on_iff g b); auto; now exists r|].
    destruct K as [(v & ->)|(er & ->)]; cbn [with_context].
    + split; [left; now exists v|]. split; [intros (m & X); discriminate|tauto].
    + split; [right; left; eexists; reflexivity|]. split; [intros (m & X); discriminate|tauto].
Qed.
Example C26_example : crash_arguments demo "isqrt" [VNum (-4)] /\ crash_arguments demo "len" [VCons (VNum 1) (VNum 2)] /\
  crash_arguments (init_world demo_host ["(a . )"%string]) "readlist" [] /\ crash_arguments demo "randint" [VNum (2 ^ 64)].
Proof.
  repeat split.
  - constructor. lia.
  - constructor. split; [eauto|]. intros [|x [|y xs]]; rewrite ?vlist_nil, ?vlist_cons, ?vlist_nil; congruence.
  - apply crash_readlist with (line := "(a . )"%string); vm_compute; reflexivity.
  - constructor; [discriminate|]. left. reflexivity.
Qed.
