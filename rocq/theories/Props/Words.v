(** * Words: capitalize, punctuation and sentences (C72). *)
From Coq Require Import Lia FMapPositive.
From Verif.Model Require Import Base Syntax World Prog Lex Parse Meta Eval Builtins CoreSrc Main.
From Verif.Proofs Require Import Run Heap Rules Forms Natives Decimal LexFacts Core Wp Step Macro Symb Macros Guard Hof Lib User Combi.
From Verif.Spec Require Import Vocabulary Library Calling.
From Verif.Props Require Import LibPure Text.
Open Scope prog_scope.
Open Scope list_scope.

(** ** Specification *)

(** A word: its first character (an ASCII character that is not a digit) and
    the others (any Unicode characters). *)
Definition word : Type := N * list N.
Definition is_word (x : word) : Prop :=
  (fst x < 128)%N /\ ~ (48 <= fst x <= 57)%N /\ Forall scalar (snd x).
Definition spelled (x : word) : string := text (fst x :: snd x).
(** The capital of a, ..., z; other characters stay as they are. *)
Definition capital (cp : N) : N := if ((97 <=? cp) && (cp <=? 122))%N then (cp - 32)%N else cp.
Definition capitalized (x : word) : string := text (capital (fst x) :: snd x).
(** The functions for punctuation marks. *)
Definition marks : list (string * string) :=
  [("bang", "!"); ("comma", ","); ("period", "."); ("colon", ":")]%string.

(** ** map of a function without effects *)
Lemma map_pv f xs ys : is_macro f = false -> Forall2 (fun x y => pv f [x] y) xs ys -> pv (core_val "map") [f; vlist xs] (vlist ys).
Proof.
  intros NM F. induction F as [|x y xs ys P F IH]; intros M e w Q C K; penter i w1; ev.
  - pdone.
  - hbody. ev. vcall P. ev. vcall IH. ev. pdone.
Qed.
Lemma native_pv b args v : (forall w e d, runs step d (builtin_prog b args e) w (Ok v) w) -> pv (VBuiltin b) args v.
Proof. intros R M e w Q C K. eapply wpf_native; [exact I|apply R|apply K, grows_refl]. Qed.
Lemma split_pv cps : Forall scalar cps -> pv (VBuiltin BSplit) [VAtom (text cps)] (vlist (map (fun cp => VAtom (utf8 cp)) cps)).
Proof. intros F. apply native_pv. intros. cbn [builtin_prog arg1]. rewrite chars_text by auto. apply runs_ret_. Qed.
Lemma upcase_pv cp : (cp < 128)%N -> pv (VBuiltin BUpcase) [VAtom (utf8 cp)] (VAtom (utf8 (capital cp))).
Proof.
  intros L. apply native_pv. intros. cbn [builtin_prog arg1]. apply runs_op. cbn [exec fst snd].
  unfold utf8 at 1 2. replace (cp <? 128)%N with true by (symmetry; now apply N.ltb_lt).
  replace (is_ascii_str (str1 (chr cp))) with true.
  2: { unfold is_ascii_str, str1. cbn [str_forall]. rewrite byte_chr by lia. symmetry. rewrite andb_true_r. now apply N.ltb_lt. }
  replace (str_map up_ch (str1 (chr cp))) with (utf8 (capital cp)); [apply runs_ret_|].
  assert (L2 : (capital cp < 128)%N) by (unfold capital; destruct (_ && _)%bool eqn:E; [apply andb_prop in E; rewrite !N.leb_le in E|]; lia).
  unfold utf8. replace (capital cp <? 128)%N with true by (symmetry; now apply N.ltb_lt).
  unfold str1. cbn [str_map]. f_equal. unfold capital, up_ch, in_range. rewrite byte_chr by lia. destruct (_ && _)%bool; auto.
Qed.
Lemma texts cps : fold_right (fun x s => (str x ++ s)%string) ""%string (map (fun cp => VAtom (utf8 cp)) cps) = text cps.
Proof. unfold text. induction cps as [|cp cps IH]; cbn [map fold_right str]; congruence. Qed.
Lemma ascii_digit cp s w : (cp < 128)%N -> ~ (48 <= cp <= 57)%N -> fst (exec (OIsDigit (utf8 cp ++ s)) w) = false.
Proof.
  intros L D. unfold utf8. replace (cp <? 128)%N with true by (symmetry; now apply N.ltb_lt).
  cbn [str1 append exec fst]. rewrite byte_chr by lia. replace (cp <? 128)%N with true by (symmetry; now apply N.ltb_lt).
  unfold is_digit_ch, in_range. rewrite byte_chr by lia. destruct (_ && _)%bool eqn:E; auto.
  apply andb_prop in E. rewrite !N.leb_le in E. lia.
Qed.
Lemma fuse_pv cp xs : (cp < 128)%N -> ~ (48 <= cp <= 57)%N ->
  pv (VBuiltin BFuse) [vlist (VAtom (utf8 cp) :: xs)] (VAtom (utf8 cp ++ fold_right (fun x s => (str x ++ s)%string) ""%string xs)).
Proof.
  intros L D. apply native_pv. intros. pose proof (fuse_runs (VAtom (utf8 cp)) xs d e w) as R. cbn zeta in R. cbn [fold_right str] in R.
  rewrite ascii_digit in R by auto. exact R.
Qed.
Lemma ascii_scalar cp : (cp < 128)%N -> scalar cp.
Proof. unfold scalar. lia. Qed.
Lemma capital_ascii cp : (cp < 128)%N -> ~ (48 <= cp <= 57)%N -> (capital cp < 128)%N /\ ~ (48 <= capital cp <= 57)%N.
Proof. intros L D. unfold capital. destruct (_ && _)%bool eqn:E; [apply andb_prop in E; rewrite !N.leb_le in E|]; lia. Qed.

(** ** capitalize *)
Lemma capitalize_pv x : is_word x -> pv (core_val "capitalize") [VAtom (spelled x)] (VAtom (capitalized x)).
Proof.
  destruct x as [cp cps]. intros (L & D & S). cbn [fst snd] in *. intros M e w Q C K. penter i w1.
  assert (SC0 : Forall scalar (cp :: cps)) by (constructor; auto using ascii_scalar).
  hlet. split; [reflexivity|]. ev. vcall (split_pv (cp :: cps) SC0). hset. cbn [wpb]. cbn [map]. ev.
  set (us := map (fun cp0 : N => VAtom (utf8 cp0)) cps) in *.
  vcall (take_pv (VAtom (utf8 cp) :: us) 1 ltac:(lia)). cbn [firstn].
  assert (UP : Forall2 (fun x y => pv (VBuiltin BUpcase) [x] y) [VAtom (utf8 cp)] [VAtom (utf8 (capital cp))]) by (constructor; [now apply upcase_pv|constructor]).
  vcall (map_pv (VBuiltin BUpcase) _ _ eq_refl UP).
  ev. vcall (drop_pv (VAtom (utf8 cp) :: us) 1 ltac:(lia)). ev.
  vcall (concat_pv_lists [[VAtom (utf8 (capital cp))]; us]). cbn [concat app]. rewrite app_nil_r.
  destruct (capital_ascii cp L D) as [L2 D2]. vcall (fuse_pv (capital cp) us L2 D2). unfold us. rewrite texts. pdone.
Qed.
Theorem C72_capitalize x e w : is_word x -> library "capitalize" e w ->
  yields (call_on "capitalize" [VAtom (spelled x)]) e w (VAtom (capitalized x)).
Proof. intros W L. lib_tac (capitalize_pv x W). Qed.

(** ** Punctuation marks *)
Lemma punctuate_atom_pv x m : is_word x -> pv (core_val "punctuate-atom") [VAtom (spelled x); VAtom m] (VAtom (spelled x ++ m)).
Proof.
  destruct x as [cp cps]. intros (L & D & S). cbn [fst snd] in *. intros M e w Q C K. penter i w1.
  assert (SC0 : Forall scalar (cp :: cps)) by (constructor; auto using ascii_scalar).
  hlet. split; [reflexivity|]. ev. vcall (split_pv (cp :: cps) SC0). hset. cbn [wpb]. ev.
  vcall (concat_pv_lists [map (fun cp0 : N => VAtom (utf8 cp0)) (cp :: cps); [VAtom m]]). cbn [concat app map].
  set (us := map (fun cp0 : N => VAtom (utf8 cp0)) cps) in *.
  vcall (fuse_pv cp (us ++ [VAtom m]) L D). 
  replace (utf8 cp ++ fold_right (fun x s => (str x ++ s)%string) ""%string (us ++ [VAtom m]))%string with (spelled (cp, cps) ++ m)%string; [pdone|].
  unfold spelled. cbn [fst snd text fold_right]. change (fold_right _ _ cps) with (text cps). rewrite app_assoc_s. f_equal.
  unfold us. clear. induction cps as [|c cps IH]; cbn [map app fold_right str text].
  - now rewrite app_nil_s.
  - change (fold_right _ _ cps) with (text cps). now rewrite app_assoc_s, IH.
Qed.
Theorem C72_punctuate_atom x m e w : is_word x -> library "punctuate-atom" e w ->
  yields (call_on "punctuate-atom" [VAtom (spelled x); VAtom m]) e w (VAtom (spelled x ++ m)).
Proof. intros W L. lib_tac (punctuate_atom_pv x m W). Qed.
Lemma mark_pv g m x : In (g, m) marks -> is_word x -> pv (core_val g) [VAtom (spelled x)] (VAtom (spelled x ++ m)).
Proof.
  intros I W. cbn [In marks] in I. destruct I as [I|[I|[I|[I|[]]]]]; injection I as <- <-; intros M e w Q C K; penter i w1; ev;
    match goal with |- wpf _ _ _ [_; core_val ?n] _ _ _ =>
      let v := eval vm_compute in (core_val n) in replace (core_val n) with v by (vm_compute; reflexivity) end;
    match goal with |- wpf _ _ _ [_; VAtom ?m] _ _ _ => vcall (punctuate_atom_pv x m W) end; pdone.
Qed.
Theorem C72_marks g m x e w : In (g, m) marks -> is_word x -> library g e w ->
  yields (call_on g [VAtom (spelled x)]) e w (VAtom (spelled x ++ m)).
Proof.
  intros I W L. pose proof (mark_pv g m x I W) as P. cbn [In marks] in I.
  destruct I as [I|[I|[I|[I|[]]]]]; injection I as <- <-; lib_tac P.
Qed.

(** ** Sentences *)
Lemma punctuate_nil_pv f : pv (core_val "punctuate") [f; VNil] VNil.
Proof. intros M e w Q C K. penter i w1. ev. pdone. Qed.
Lemma punctuate_one_pv f x y : is_macro f = false -> pv f [x] (VAtom (spelled y)) -> is_word y ->
  pv (core_val "punctuate") [f; vlist [x]] (vlist [VAtom (capitalized y)]).
Proof.
  intros NM P W M e w Q C K. penter i w1. ev. change (Z.of_nat (length [x]) =? 1)%Z with true. ev. vcall P. ev.
  vcall (capitalize_pv y W). ev. pdone.
Qed.
Lemma punctuate_many_pv f a mid z y : is_macro f = false -> is_word a -> pv f [z] y ->
  pv (core_val "punctuate") [f; vlist (VAtom (spelled a) :: mid ++ [z])] (vlist (VAtom (capitalized a) :: mid ++ [y])).
Proof.
  intros NM W P M e w Q C K. penter i w1. ev.
  set (l := VAtom (spelled a) :: mid ++ [z]) in *.
  replace (Z.of_nat (length l) =? 1)%Z with false by (symmetry; apply Z.eqb_neq; unfold l; cbn [length]; rewrite app_length; cbn [length]; lia).
  ev. vcall (capitalize_pv a W). ev. vcall (butlast_pv l).
  change l with ((VAtom (spelled a) :: mid) ++ [z]). rewrite removelast_last. ev.
  vcall (last_pv ((VAtom (spelled a) :: mid) ++ [z])). rewrite last_last. ev. vcall P. ev.
  vcall (concat_pv_lists [mid; [y]]). cbn [concat app]. ev. pdone.
Qed.
(** punctuate, for any function without effects (on the word it is called with). *)
Lemma computes_pv f args v : function_value f -> computes f args v -> pv f args v.
Proof.
  intros FV CP M e w Q C K. destruct (CP w C) as (w' & A & G). apply applies_invokes in A; auto.
  apply (invokes_env _ _ _ e) in A; auto. split; [|intros _; exists (Ok v), w'; exact A].
  intros r w2 X. change (invokes f args e w r w2) in X. destruct (invokes_det _ _ _ _ _ _ _ _ A X) as [<- <-]. now apply K.
Qed.
Theorem C72_punctuate f e w : function_value f -> library "punctuate" e w ->
  yields (call_on "punctuate" [f; VNil]) e w VNil /\
  (forall x y, computes f [x] (VAtom (spelled y)) -> is_word y ->
     yields (call_on "punctuate" [f; vlist [x]]) e w (vlist [VAtom (capitalized y)])) /\
  (forall a mid z y, is_word a -> computes f [z] y ->
     yields (call_on "punctuate" [f; vlist (VAtom (spelled a) :: mid ++ [z])]) e w (vlist (VAtom (capitalized a) :: mid ++ [y]))).
Proof.
  intros FV L. assert (NM : is_macro f = false) by (destruct f; cbn in *; auto). split; [|split].
  - lib_tac (punctuate_nil_pv f).
  - intros x y CP W. lib_tac (punctuate_one_pv f x y NM (computes_pv _ _ _ FV CP) W).
  - intros a mid z y W CP. lib_tac (punctuate_many_pv f a mid z y NM W (computes_pv _ _ _ FV CP)).
Qed.
(** The functions that make sentences, and the mark each puts at the end. *)
Definition sentence_makers : list (string * string) := [("tosentence", "."); ("exclaim", "!")]%string.
Lemma maker_pv g m l v : In (g, m) sentence_makers ->
  (forall k, In (k, m) marks -> pv (core_val "punctuate") [core_val k; l] v) -> pv (core_val g) [l] v.
Proof.
  intros I P. cbn [In sentence_makers] in I. destruct I as [I|[I|[]]]; injection I as <- <-; intros M e w Q C K; penter i w1; ev.
  - vcall (P "period"%string ltac:(cbn; auto)). pdone.
  - vcall (P "bang"%string ltac:(cbn; auto)). pdone.
Qed.
Lemma marked x m k : In (k, m) marks -> is_word x ->
  exists y, is_word y /\ spelled y = (spelled x ++ m)%string /\ capitalized y = (capitalized x ++ m)%string.
Proof.
  intros I (A & B & S).
  assert (X : exists cp, (cp < 128)%N /\ m = utf8 cp).
  { cbn [In marks] in I. destruct I as [I|[I|[I|[I|[]]]]]; injection I as <- <-; [exists 33%N|exists 44%N|exists 46%N|exists 58%N]; split; reflexivity. }
  destruct X as (cp & L & ->).
  assert (T : forall l, text (l ++ [cp]) = (text l ++ utf8 cp)%string).
  { induction l as [|c l IH]; cbn [app text fold_right]; [now rewrite app_nil_s|].
    change (fold_right _ _ (l ++ [cp])) with (text (l ++ [cp])). rewrite IH. now rewrite app_assoc_s. }
  exists (fst x, snd x ++ [cp]). split; [|split].
  - split; [exact A|]. split; [exact B|]. cbn. apply Forall_app. auto using ascii_scalar.
  - unfold spelled. cbn [fst snd]. change (fst x :: snd x ++ [cp]) with ((fst x :: snd x) ++ [cp]). apply T.
  - unfold capitalized. cbn [fst snd]. change (capital (fst x) :: snd x ++ [cp]) with ((capital (fst x) :: snd x) ++ [cp]). apply T.
Qed.
Lemma mark_not_macro k m : In (k, m) marks -> is_macro (core_val k) = false.
Proof. cbn [In marks]. intros [I|[I|[I|[I|[]]]]]; injection I as <- <-; vm_compute; reflexivity. Qed.
Ltac maker I P :=
  cbn [In sentence_makers] in I; destruct I as [I|[I|[]]]; injection I as <- <-; lib_tac P.
Theorem C72_sentence g m e w : In (g, m) sentence_makers -> library g e w ->
  yields (call_on g [VNil]) e w VNil /\
  (forall x, is_word x -> yields (call_on g [vlist [VAtom (spelled x)]]) e w (vlist [VAtom (capitalized x ++ m)])) /\
  (forall x mid z, is_word x -> is_word z ->
     yields (call_on g [vlist (VAtom (spelled x) :: mid ++ [VAtom (spelled z)])]) e w
       (vlist (VAtom (capitalized x) :: mid ++ [VAtom (spelled z ++ m)]))).
Proof.
  intros I L. split; [|split].
  - pose proof (maker_pv g m VNil VNil I (fun k _ => punctuate_nil_pv _)) as P. maker I P.
  - intros x W.
    assert (P : pv (core_val g) [vlist [VAtom (spelled x)]] (vlist [VAtom (capitalized x ++ m)])).
    { apply (maker_pv g m); [exact I|]. intros k Ik. destruct (marked x m k Ik W) as (y & Wy & Sy & <-).
      apply punctuate_one_pv; [now apply (mark_not_macro k m)| |exact Wy]. rewrite Sy. now apply mark_pv. }
    maker I P.
  - intros x mid z Wx Wz.
    assert (P : pv (core_val g) [vlist (VAtom (spelled x) :: mid ++ [VAtom (spelled z)])] (vlist (VAtom (capitalized x) :: mid ++ [VAtom (spelled z ++ m)]))).
    { apply (maker_pv g m); [exact I|]. intros k Ik. apply punctuate_many_pv; [now apply (mark_not_macro k m)|exact Wx|now apply mark_pv]. }
    maker I P.
Qed.
Definition word_of (s : string) : word :=
  match map (fun c => byte c) (list_ascii_of_string s) with [] => (0%N, []) | c :: r => (c, r) end.
Example C72_case :
  is_word (word_of "hello") /\ spelled (word_of "hello") = "hello"%string /\ capitalized (word_of "hello") = "Hello"%string /\
  yields (call_on "exclaim" [vlist [VAtom "well,"; VAtom "my"; VAtom "friend"]]) global_env (core_world demo_host [])
    (vlist [VAtom "Well,"; VAtom "my"; VAtom "friend!"]).
Proof.
  assert (W : forall s, s = "hello"%string \/ s = "well,"%string \/ s = "friend"%string -> is_word (word_of s)).
  { intros s D. destruct D as [->|[->| ->]]; (split; [reflexivity|split; [cbn; lia|repeat constructor]]). }
  split; [auto|]. split; [reflexivity|]. split; [reflexivity|].
  destruct (C72_sentence "exclaim" "!" global_env (core_world demo_host []) ltac:(cbn; auto)) as (_ & _ & X); [apply library_start|].
  apply (X (word_of "well,") [VAtom "my"] (word_of "friend")); auto.
Qed.
