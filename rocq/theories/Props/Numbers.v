(** * Numbers: properties C27-C31 (arithmetic, comparison, equality, isqrt). *)
From Coq Require Import Lia Zquot.
From Verif.Model Require Import Base Syntax World Prog Lex Parse Meta Eval Builtins CoreSrc Main.
From Verif.Proofs Require Import Run Heap Rules Forms Natives.
From Verif.Spec Require Import Vocabulary.
Open Scope prog_scope.
Open Scope list_scope.
Open Scope Z_scope.

(** ** Specification *)

Definition number (v : val) : Prop := exists n, v = VNum n.
Definition total (ns : list Z) : Z := fold_right Z.add 0 ns.
Definition product (ns : list Z) : Z := fold_right Z.mul 1 ns.

(** [q] is the Euclidean quotient of [a] by [b]. *)
Definition euclid (a b q : Z) : Prop := exists r, a = q * b + r /\ 0 <= r < Z.abs b.
(** Dividing [a] by each of [bs] in turn. *)
Inductive quotient : Z -> list Z -> Z -> Prop :=
| quotient_none a : quotient a [] a
| quotient_more a b bs q r : euclid a b q -> quotient q bs r -> quotient a (b :: bs) r.
(** [r] is the remainder of [a] by [b] with the sign of [a]. *)
Definition truncated_rem (a b r : Z) : Prop :=
  (exists k, a = k * b + r) /\ Z.abs r < Z.abs b /\ (r = 0 \/ Z.sgn r = Z.sgn a).

(** Neighbours are related. *)
Definition chained (R : Z -> Z -> Prop) (ns : list Z) : Prop :=
  forall i x y, nth_error ns i = Some x -> nth_error ns (S i) = Some y -> R x y.

(** The same data: symbols, integers, () and pairs of data. *)
Inductive same_data : val -> val -> Prop :=
| same_atom s : same_data (VAtom s) (VAtom s)
| same_num n : same_data (VNum n) (VNum n)
| same_nil : same_data VNil VNil
| same_pair a a' d d' : same_data a a' -> same_data d d' -> same_data (VCons a d) (VCons a' d').
(** Values that contain no function. *)
Fixpoint data (v : val) : Prop :=
  match v with
  | VAtom _ | VNum _ | VNil => True
  | VCons a d => data a /\ data d
  | VLam _ _ _ _ _ _ | VBuiltin _ => False
  end.

Lemma number_dec v : {number v} + {~ number v}.
Proof. destruct v; (left; eexists; reflexivity) || (right; intros [m E]; discriminate). Qed.
Lemma numbers_or vs :
  (exists ns, vs = map VNum ns) \/
  (exists ns v rest, vs = map VNum ns ++ v :: rest /\ ~ number v).
Proof.
  induction vs as [|v vs [(ns & ->) | (ns & u & rest & -> & N)]].
  - left. now exists [].
  - destruct (number_dec v) as [[n ->]|N].
    + left. now exists (n :: ns).
    + right. now exists [], v, (map VNum ns).
  - destruct (number_dec v) as [[n ->]|N'].
    + right. now exists (n :: ns), u, rest.
    + right. now exists [], v, (map VNum ns ++ u :: rest).
Qed.
Lemma non_number vs : (exists v, In v vs /\ ~ number v) ->
  exists ns v rest, vs = map VNum ns ++ v :: rest /\ ~ number v.
Proof.
  intros (v & I & N). destruct (numbers_or vs) as [(ns & ->)|X]; auto.
  apply in_map_iff in I. destruct I as (n & <- & _). destruct N. now exists n.
Qed.

(** ** C27 *)
Lemma num_fold_ok f ns : forall acc d w, runs step d (num_fold f acc (map VNum ns)) w (Ok (VNum (fold_left f ns acc))) w.
Proof. induction ns as [|n ns IH]; intros; [apply runs_ret_|]. cbn [map num_fold fold_left]. apply IH. Qed.
Lemma num_fold_er f ns v rest : ~ number v ->
  forall acc d w, exists er, runs step d (num_fold f acc (map VNum ns ++ v :: rest)) w (Er er) w.
Proof.
  intros N. induction ns as [|n ns IH]; intros.
  - destruct v; try (eexists; apply runs_raise_). destruct N. now exists n.
  - cbn [map app num_fold]. apply IH.
Qed.
Lemma fold_add ns : forall a, fold_left Z.add ns a = a + total ns.
Proof. induction ns as [|n ns IH]; intros; simpl; [lia|]. rewrite IH. unfold total. simpl. lia. Qed.
Lemma fold_sub ns : forall a, fold_left Z.sub ns a = a - total ns.
Proof. induction ns as [|n ns IH]; intros; simpl; [lia|]. rewrite IH. unfold total. simpl. lia. Qed.
Lemma fold_mul ns : forall a, fold_left Z.mul ns a = a * product ns.
Proof. induction ns as [|n ns IH]; intros; simpl; [lia|]. rewrite IH. unfold product. simpl. ring. Qed.

Theorem C27_add : forall ns e w, standard "+" e w ->
  gives (call_on "+" (map VNum ns)) e w (VNum (total ns)).
Proof.
  intros. apply (gives_native _ BAdd); auto. cbn [builtin_prog].
  replace (total ns) with (fold_left Z.add ns 0) by (now rewrite fold_add). apply num_fold_ok.
Qed.
Theorem C27_mul : forall ns e w, standard "*" e w ->
  gives (call_on "*" (map VNum ns)) e w (VNum (product ns)).
Proof.
  intros. apply (gives_native _ BMul); auto. cbn [builtin_prog].
  replace (product ns) with (fold_left Z.mul ns 1) by (rewrite fold_mul; lia). apply num_fold_ok.
Qed.
Theorem C27_sub : forall n ns e w, standard "-" e w -> ns <> [] ->
  gives (call_on "-" (map VNum (n :: ns))) e w (VNum (n - total ns)).
Proof.
  intros n ns e w S N. apply (gives_native _ BSub); auto. cbn [builtin_prog map].
  replace (n - total ns) with (fold_left Z.sub ns n) by (now rewrite fold_sub).
  destruct ns as [|m ns]; [congruence|]. apply (num_fold_ok _ (m :: ns)).
Qed.
Theorem C27_negate : forall n e w, standard "-" e w ->
  gives (call_on "-" [VNum n]) e w (VNum (- n)).
Proof. intros. apply (gives_native _ BSub); auto. apply runs_ret_. Qed.
Theorem C27_sub_no_arguments : forall e w, standard "-" e w -> rejects (call_on "-" []) e w.
Proof. intros. eapply (rejects_native _ BSub); auto. apply runs_raise_. Qed.
Theorem C27_non_integer : forall g vs e w, In g ["+"; "-"; "*"]%string -> standard g e w ->
  (exists v, In v vs /\ ~ number v) -> rejects (call_on g vs) e w.
Proof.
  intros g vs e w G S X. apply non_number in X. destruct X as (ns & v & rest & -> & N).
  assert (F : forall f acc, exists er, runs step Inf (num_fold f acc (map VNum ns ++ v :: rest)) w (Er er) w)
    by (intros; now apply num_fold_er).
  destruct G as [<-|[<-|[<-|[]]]].
  - destruct (F Z.add 0) as [er R]. now apply (rejects_native _ BAdd _ _ _ er).
  - assert (exists er, runs step Inf (builtin_prog BSub (map VNum ns ++ v :: rest) e) w (Er er) w) as [er R].
    { cbn [builtin_prog]. destruct ns as [|n ns]; cbn [map app].
      - destruct v; try (destruct N; eexists; reflexivity); destruct rest; eexists; apply runs_raise_.
      - destruct (num_fold_er Z.sub ns v rest N n Inf w) as [er R].
        destruct (map VNum ns ++ v :: rest) eqn:E; [now destruct ns|]. now exists er. }
    now apply (rejects_native _ BSub _ _ _ er).
  - destruct (F Z.mul 1) as [er R]. now apply (rejects_native _ BMul _ _ _ er).
Qed.

Lemma demo_standard g : fget g initial_bindings = None -> standard g global_env demo.
Proof.
  intros H. split.
  - unfold lookup, global_env. change (frame_at demo 1) with initial_bindings. now rewrite H.
  - exact I.
Qed.
Example C27_example :
  gives (call_on "+" [VNum (2 ^ 100); VNum 1; VNum (- 3)]) global_env demo (VNum (2 ^ 100 - 2)) /\
  gives (call_on "-" [VNum 1; VNum 2; VNum 3]) global_env demo (VNum (-4)) /\
  rejects (call_on "*" [VNum 1; VAtom "x"]) global_env demo.
Proof.
  split; [|split].
  - apply (C27_add [2 ^ 100; 1; -3] global_env demo). now apply demo_standard.
  - apply (C27_sub 1 [2; 3] global_env demo); [now apply demo_standard|discriminate].
  - apply C27_non_integer; [simpl; auto|now apply demo_standard|]. exists (VAtom "x").
    split; [simpl; auto|]. intros [n E]; discriminate.
Qed.

(** ** C28 *)
Lemma big_div_euclid a b : b <> 0 -> euclid a b (big_div a b).
Proof.
  intros N. unfold euclid, big_div. exists (a mod Z.abs b).
  pose proof (Z.div_mod a (Z.abs b)). pose proof (Z.mod_pos_bound a (Z.abs b)).
  split; [|lia]. pose proof (Z.sgn_abs b). pose proof (Z.abs_sgn b).
  replace (Z.sgn b * (a / Z.abs b) * b) with (Z.abs b * (a / Z.abs b)); [lia|].
  rewrite <- (Z.sgn_abs b) at 1. ring.
Qed.
Lemma euclid_unique a b q q' : euclid a b q -> euclid a b q' -> q = q'.
Proof.
  intros (r & E & B) (r' & E' & B'). subst a.
  assert ((q' - q) * b = r - r') by lia.
  destruct (Z.eq_dec (q' - q) 0); [lia|].
  assert (Z.abs b <= Z.abs ((q' - q) * b)) by (rewrite Z.abs_mul; nia). lia.
Qed.
Lemma quotient_unique a bs q q' : quotient a bs q -> quotient a bs q' -> q = q'.
Proof.
  intros H. revert q'. induction H as [a|a b bs q r E Q IH]; intros q' H'.
  - now inversion H'.
  - inversion H' as [|? ? ? q2 ? E2 Q2]; subst. rewrite (euclid_unique _ _ _ _ E2 E) in Q2. auto.
Qed.
(** The quotient, when it exists, is the only one: so this determines the result. *)
Theorem C28_div : forall a bs e w, standard "/" e w -> ~ In 0 bs ->
  exists q, quotient a bs q /\ (forall q', quotient a bs q' -> q' = q) /\
            gives (call_on "/" (map VNum (a :: bs))) e w (VNum q).
Proof.
  intros a bs e w S N.
  assert (exists q, quotient a bs q /\ runs step Inf (div_fold a (map VNum bs)) w (Ok (VNum q)) w) as (q & Q & R).
  { clear S. revert a. induction bs as [|b bs IH]; intros a.
    - exists a. split; [constructor|apply runs_ret_].
    - assert (B : b <> 0) by (intros ->; apply N; now left).
      destruct IH with (a := big_div a b) as (q & Q & R); [intros I; apply N; now right|].
      exists q. split; [econstructor; [now apply big_div_euclid|exact Q]|].
      cbn [map div_fold]. apply Z.eqb_neq in B. now rewrite B. }
  exists q. split; [exact Q|]. split; [intros; eapply quotient_unique; eauto|].
  now apply (gives_native _ BDiv).
Qed.
Corollary C28_div_two : forall a b e w, standard "/" e w -> b <> 0 ->
  exists q r, a = q * b + r /\ 0 <= r < Z.abs b /\ gives (call_on "/" [VNum a; VNum b]) e w (VNum q).
Proof.
  intros a b e w S N. destruct (C28_div a [b] e w S) as (q & Q & _ & G); [intros [|[]]; congruence|].
  inversion Q as [|? ? ? q' ? (r & E & B) Q' ]; subst. inversion Q'; subst. exists q, r. auto.
Qed.
(** Everything else is an error, never a crash. *)
Theorem C28_div_rejects : forall vs e w, standard "/" e w ->
  vs = [] \/ (exists v, In v vs /\ ~ number v) \/ (exists a bs, vs = map VNum (a :: bs) /\ In 0 bs) ->
  rejects (call_on "/" vs) e w.
Proof.
  intros vs e w S [-> | [X | (a & bs & -> & I)]].
  - eapply (rejects_native _ BDiv); auto. apply runs_raise_.
  - apply non_number in X. destruct X as (ns & v & rest & -> & N).
    assert (exists er, runs step Inf (builtin_prog BDiv (map VNum ns ++ v :: rest) e) w (Er er) w) as [er R].
    { destruct ns as [|n ns]; cbn [builtin_prog map app].
      - destruct v; try (eexists; apply runs_raise_). destruct N; eexists; reflexivity.
      - revert n. induction ns as [|m ns IH]; intros n; cbn [map app div_fold].
        + destruct v; try (eexists; apply runs_raise_). destruct N; eexists; reflexivity.
        + destruct (m =? 0); [eexists; apply runs_raise_|]. apply IH. }
    now apply (rejects_native _ BDiv _ _ _ er).
  - assert (exists er, runs step Inf (builtin_prog BDiv (map VNum (a :: bs)) e) w (Er er) w) as [er R].
    { cbn [builtin_prog map]. revert a. induction bs as [|b bs IH]; [destruct I|]. intros a. cbn [map div_fold].
      destruct (b =? 0) eqn:B; [eexists; apply runs_raise_|]. apply IH. destruct I; auto. subst. discriminate. }
    now apply (rejects_native _ BDiv _ _ _ er).
Qed.
Lemma rem_truncated a b : b <> 0 -> truncated_rem a b (big_rem a b).
Proof.
  intros N. unfold truncated_rem, big_rem. split; [|split].
  - exists (a ÷ b). pose proof (Z.quot_rem a b N). lia.
  - apply Z.rem_bound_abs. auto.
  - destruct (Z.eq_dec (Z.rem a b) 0); auto. right. apply Z.rem_sign_nz; auto.
Qed.
Lemma truncated_unique a b r r' : truncated_rem a b r -> truncated_rem a b r' -> r = r'.
Proof.
  intros ([k E] & B & S) ([k' E'] & B' & S').
  assert ((k' - k) * b = r - r') by lia.
  assert (Z.abs (r - r') < Z.abs b \/ k' - k = 0) as [L|L]; [|destruct (Z.eq_dec (k' - k) 0); [lia|]|lia].
  - left. destruct (Z.sgn_spec r) as [[? ?]|[[? ?]|[? ?]]], (Z.sgn_spec r') as [[? ?]|[[? ?]|[? ?]]]; lia.
  - assert (Z.abs b <= Z.abs ((k' - k) * b)) by (rewrite Z.abs_mul; nia). lia.
Qed.
Theorem C28_rem : forall a b e w, standard "rem" e w -> b <> 0 ->
  exists r, truncated_rem a b r /\ (forall r', truncated_rem a b r' -> r' = r) /\
            gives (call_on "rem" [VNum a; VNum b]) e w (VNum r).
Proof.
  intros a b e w S N. exists (big_rem a b). split; [now apply rem_truncated|].
  split; [intros; eapply truncated_unique; eauto; now apply rem_truncated|].
  apply (gives_native _ BRem); auto. cbn [builtin_prog]. apply Z.eqb_neq in N. rewrite N. apply runs_ret_.
Qed.
Theorem C28_rem_rejects : forall vs e w, standard "rem" e w ->
  ~ (exists a b, vs = [VNum a; VNum b] /\ b <> 0) -> rejects (call_on "rem" vs) e w.
Proof.
  intros vs e w S N.
  assert (exists er, runs step Inf (builtin_prog BRem vs e) w (Er er) w) as [er R].
  { cbn [builtin_prog].
    destruct vs as [|[] [|[] [|? ?]]]; try (eexists; apply runs_raise_).
    destruct (n0 =? 0) eqn:E; [eexists; apply runs_raise_|]. destruct N. apply Z.eqb_neq in E. eauto. }
  now apply (rejects_native _ BRem _ _ _ er).
Qed.
(** The two do not fit together: a = (/ a b)*b + (rem a b) only for a >= 0 or exact division. *)
Theorem C28_div_rem_fit : forall a b q r, b <> 0 -> euclid a b q -> truncated_rem a b r ->
  (a = q * b + r <-> 0 <= a \/ (b | a)).
Proof.
  intros a b q r N Q T.
  split.
  - intros E. destruct Q as (r0 & E0 & B0). destruct T as ([k Ek] & B & S).
    assert (r = r0) by lia. subst r0. destruct S as [-> | S]; [right; exists q; lia|].
    destruct (Z.eq_dec r 0) as [->|]; [right; exists q; lia|]. left. lia.
  - intros [P | [k ->]].
    + assert (truncated_rem a b (a - q * b)) as T'.
      { destruct Q as (r0 & E0 & B0). replace (a - q * b) with r0 by lia. repeat split; [exists q; lia|lia|].
        destruct (Z.eq_dec r0 0); [auto|right]. destruct (Z.eq_dec a 0).
        - subst a. assert (q * b = - r0) by lia. assert (q <> 0) by lia.
          assert (Z.abs b <= Z.abs (q * b)) by (rewrite Z.abs_mul; nia). lia.
        - lia. }
      rewrite (truncated_unique _ _ _ _ T T'). lia.
    + assert (Q' : euclid (k * b) b k) by (exists 0; lia).
      rewrite (euclid_unique _ _ _ _ Q Q').
      assert (T' : truncated_rem (k * b) b 0) by (repeat split; [exists k; lia|lia|auto]).
      rewrite (truncated_unique _ _ _ _ T T'). lia.
Qed.
Example C28_example :
  (exists q r, -7 = q * 2 + r /\ 0 <= r < Z.abs 2 /\ gives (call_on "/" [VNum (-7); VNum 2]) global_env demo (VNum q)) /\
  gives (call_on "/" [VNum (-7); VNum 2]) global_env demo (VNum (-4)) /\
  gives (call_on "/" [VNum 7; VNum (-2)]) global_env demo (VNum (-3)) /\
  gives (call_on "rem" [VNum (-7); VNum 2]) global_env demo (VNum (-1)) /\
  rejects (call_on "/" [VNum 1; VNum 0]) global_env demo.
Proof.
  split; [apply C28_div_two; [now apply demo_standard|lia]|].
  repeat split; try (exists 5%nat; split; [vm_compute; reflexivity|discriminate]).
  apply C28_div_rejects; [now apply demo_standard|]. right. right. exists 1, [0]. simpl. auto.
Qed.

(** ** C29 *)
Definition comparison (g : string) : Z -> Z -> Prop :=
  if String.eqb g "<" then Z.lt else if String.eqb g "<=" then Z.le
  else if String.eqb g ">" then Z.gt else Z.ge.
Lemma chained_nil R : chained R [].
Proof. intros [|i] x y E; discriminate. Qed.
Lemma chained_one R a : chained R [a].
Proof. intros [|[|i]] x y E F; discriminate. Qed.
Lemma chained_cons R a b ns : chained R (a :: b :: ns) <-> R a b /\ chained R (b :: ns).
Proof.
  split.
  - intros H. split; [now apply (H 0%nat)|]. intros i x y E F. now apply (H (S i)).
  - intros [P H] [|i] x y E F; [injection E as <-; injection F as <-; exact P|now apply (H i)].
Qed.
Lemma compare_ok cmp (R : Z -> Z -> Prop) : (forall x y, cmp x y = true <-> R x y) ->
  forall rest ns n d w, chained R (n :: ns) ->
  (rest = [] -> runs step d (compare_fold cmp n (map VNum ns ++ rest)) w (Ok VT) w) /\
  (forall v r, rest = v :: r -> ~ number v ->
     exists er, runs step d (compare_fold cmp n (map VNum ns ++ rest)) w (Er er) w).
Proof.
  intros C rest ns. induction ns as [|m ns IH]; intros n d w H.
  - split; [intros ->; apply runs_ret_|]. intros v r -> N.
    destruct v; try (eexists; apply runs_raise_). destruct N; eexists; reflexivity.
  - apply chained_cons in H. destruct H as [P H]. cbn [map app compare_fold]. apply C in P. rewrite P. now apply IH.
Qed.
Lemma compare_no cmp (R : Z -> Z -> Prop) : (forall x y, cmp x y = true <-> R x y) ->
  forall rest ns n d w, ~ chained R (n :: ns) ->
  runs step d (compare_fold cmp n (map VNum ns ++ rest)) w (Ok VNil) w.
Proof.
  intros C rest ns. induction ns as [|m ns IH]; intros n d w H.
  - destruct H. apply chained_one.
  - cbn [map app compare_fold]. destruct (cmp n m) eqn:E; [|apply runs_ret_].
    apply IH. intros X. apply H. apply chained_cons. split; auto. now apply C.
Qed.
Lemma comparison_cases g : In g ["<"; "<="; ">"; ">="]%string ->
  exists b cmp, is_native g b = true /\ (forall vs e, builtin_prog b vs e = compare_nums cmp vs) /\
    forall x y, cmp x y = true <-> comparison g x y.
Proof.
  intros [<-|[<-|[<-|[<-|[]]]]].
  - exists BLt, Z.ltb. repeat split; auto; apply Z.ltb_lt.
  - exists BLe, Z.leb. repeat split; auto; apply Z.leb_le.
  - exists BGt, Z.gtb. repeat split; auto; rewrite Z.gtb_lt; unfold comparison; simpl; lia.
  - exists BGe, Z.geb. repeat split; auto; rewrite Z.geb_le; unfold comparison; simpl; lia.
Qed.
Theorem C29_true : forall g n ns e w, In g ["<"; "<="; ">"; ">="]%string -> standard g e w ->
  chained (comparison g) (n :: ns) -> gives (call_on g (map VNum (n :: ns))) e w VT.
Proof.
  intros g n ns e w G S H. destruct (comparison_cases g G) as (b & cmp & B & P & C).
  apply (gives_native _ b); auto. rewrite P. cbn [map compare_nums].
  destruct (compare_ok cmp _ C [] ns n Inf w H) as [X _]. rewrite app_nil_r in X. auto.
Qed.
(** Once two neighbours are not in order the answer is (), whatever follows. *)
Theorem C29_false : forall g ns rest e w, In g ["<"; "<="; ">"; ">="]%string -> standard g e w ->
  ~ chained (comparison g) ns -> gives (call_on g (map VNum ns ++ rest)) e w VNil.
Proof.
  intros g ns rest e w G S H. destruct (comparison_cases g G) as (b & cmp & B & P & C).
  apply (gives_native _ b); auto. rewrite P. destruct ns as [|n ns]; [destruct H; apply chained_nil|].
  cbn [map app compare_nums]. now apply (compare_no cmp _ C).
Qed.
Theorem C29_error : forall g ns rest e w, In g ["<"; "<="; ">"; ">="]%string -> standard g e w ->
  chained (comparison g) ns ->
  (ns = [] /\ rest = []) \/ (exists v r, rest = v :: r /\ ~ number v) ->
  rejects (call_on g (map VNum ns ++ rest)) e w.
Proof.
  intros g ns rest e w G S H X. destruct (comparison_cases g G) as (b & cmp & B & P & C).
  assert (exists er, runs step Inf (builtin_prog b (map VNum ns ++ rest) e) w (Er er) w) as [er R].
  { rewrite P. destruct X as [[-> ->] | (v & r & -> & N)]; [eexists; apply runs_raise_|].
    destruct ns as [|n ns]; cbn [map app compare_nums].
    - destruct v; try (eexists; apply runs_raise_). destruct N; eexists; reflexivity.
    - destruct (compare_ok cmp _ C (v :: r) ns n Inf w H) as [_ Y]. eapply Y; eauto. }
  now apply (rejects_native _ b _ _ _ er).
Qed.
Example C29_example :
  chained (comparison "<") [1; 2; 5] /\ ~ chained (comparison "<") [1; 1] /\
  gives (call_on "<" [VNum 1; VNum 2; VNum 5]) global_env demo VT /\
  gives (call_on "<" [VNum 1; VNum 1; VAtom "x"]) global_env demo VNil /\
  rejects (call_on "<" [VNum 1; VAtom "x"]) global_env demo.
Proof.
  assert (chained (comparison "<") [1; 2; 5]).
  { apply chained_cons. split; [reflexivity|]. apply chained_cons. split; [reflexivity|apply chained_one]. }
  assert (~ chained (comparison "<") [1; 1]).
  { rewrite chained_cons. intros [X _]. discriminate. }
  split; [auto|]. split; [auto|]. split; [|split].
  - apply (C29_true "<" 1 [2; 5]); [simpl; auto|now apply demo_standard|auto].
  - apply (C29_false "<" [1; 1] [VAtom "x"]); [simpl; auto|now apply demo_standard|auto].
  - apply (C29_error "<" [1] [VAtom "x"]); [simpl; auto|now apply demo_standard|apply chained_one|].
    right. exists (VAtom "x"), []. split; auto. intros [n E]; discriminate.
Qed.

(** ** C30 *)
Lemma val_equal_iff x : forall y, val_equal x y = true <-> same_data x y.
Proof.
  induction x as [s|n| |a IHa d IHd|ps rs b IHb doc IHdoc m en|bi]; intros y.
  - destruct y; simpl; split; intros H; try discriminate; try (inversion H; fail).
    + apply String.eqb_eq in H. subst. constructor.
    + inversion H. apply String.eqb_refl.
  - destruct y; simpl; split; intros H; try discriminate; try (inversion H; fail).
    + apply Z.eqb_eq in H. subst. constructor.
    + inversion H. apply Z.eqb_refl.
  - destruct y; simpl; split; intros H; try discriminate; try (inversion H; fail); auto. constructor.
  - destruct y; cbn [val_equal]; split; intros H; try discriminate; try (inversion H; fail).
    + apply andb_prop in H. destruct H as [A D]. constructor; [now apply IHa|now apply IHd].
    + inversion H; subst. apply andb_true_intro. split; [now apply IHa|now apply IHd].
  - split; intros H; [discriminate|inversion H].
  - split; intros H; [discriminate|inversion H].
Qed.
Theorem C30_equal_true : forall x ys e w, standard "=" e w -> Forall (same_data x) ys ->
  gives (call_on "=" (x :: ys)) e w VT.
Proof.
  intros x ys e w S F. apply (gives_native _ BEq); auto. cbn [builtin_prog].
  replace VT with (equal_fold x ys); [apply runs_ret_|].
  induction F; auto. cbn [equal_fold]. apply val_equal_iff in H. now rewrite H.
Qed.
Theorem C30_equal_false : forall x ys e w, standard "=" e w -> ~ Forall (same_data x) ys ->
  gives (call_on "=" (x :: ys)) e w VNil.
Proof.
  intros x ys e w S F. apply (gives_native _ BEq); auto. cbn [builtin_prog].
  replace VNil with (equal_fold x ys); [apply runs_ret_|].
  induction ys as [|y ys IH]; [destruct F; constructor|]. cbn [equal_fold].
  destruct (val_equal x y) eqn:E; auto. apply IH. intros H. apply F. constructor; auto. now apply val_equal_iff.
Qed.
Theorem C30_no_arguments : forall e w, standard "=" e w -> rejects (call_on "=" []) e w.
Proof. intros. eapply (rejects_native _ BEq); auto. apply runs_raise_. Qed.
(** On data it is identity, hence an equivalence relation. *)
Theorem C30_identity_on_data : forall x y, same_data x y <-> x = y /\ data x.
Proof.
  split.
  - induction 1; simpl; auto. destruct IHsame_data1, IHsame_data2. subst. auto.
  - intros [<- D]. induction x; simpl in D; try constructor; tauto.
Qed.
Theorem C30_equivalence :
  (forall x, data x -> same_data x x) /\
  (forall x y, same_data x y -> same_data y x) /\
  (forall x y z, same_data x y -> same_data y z -> same_data x z).
Proof.
  repeat split; intros.
  - apply C30_identity_on_data; auto.
  - apply C30_identity_on_data in H. destruct H as [<- D]. apply C30_identity_on_data; auto.
  - apply C30_identity_on_data in H. destruct H as [<- D]. auto.
Qed.
(** A function is not even equal to itself. *)
Theorem C30_functions_never_equal : forall x y e w, standard "=" e w -> ~ data x \/ ~ data y ->
  gives (call_on "=" [x; y]) e w VNil.
Proof.
  intros x y e w S N. apply C30_equal_false; auto. intros F. inversion F; subst.
  apply C30_identity_on_data in H1. destruct H1 as [<- D]. tauto.
Qed.
Example C30_example :
  gives (call_on "=" [vlist [VNum 1; VAtom "a"]; vlist [VNum 1; VAtom "a"]]) global_env demo VT /\
  gives (call_on "=" [VNum 1; VNum 1; VNum 2]) global_env demo VNil /\
  gives (call_on "=" [VBuiltin BCar; VBuiltin BCar]) global_env demo VNil.
Proof.
  split; [|split].
  - apply C30_equal_true; [now apply demo_standard|]. repeat constructor.
  - apply C30_equal_false; [now apply demo_standard|]. intros F. inversion F; subst. inversion H2; subst. inversion H3.
  - apply C30_functions_never_equal; [now apply demo_standard|]. simpl. auto.
Qed.

(** ** C31 *)
Theorem C31_isqrt : forall n e w, standard "isqrt" e w -> 0 <= n ->
  exists s, gives (call_on "isqrt" [VNum n]) e w (VNum s) /\
            0 <= s /\ s * s <= n /\ forall m, m * m <= n -> m <= s.
Proof.
  intros n e w S N. exists (Z.sqrt n). pose proof (Z.sqrt_spec n N) as P. cbv zeta in P. pose proof (Z.sqrt_nonneg n).
  split; [|split; [auto|split; [lia|]]].
  - apply (gives_native _ BIsqrt); auto. cbn [builtin_prog arg1]. destruct (n <? 0) eqn:E; [lia|]. apply runs_ret_.
  - intros m M. destruct (Z_le_gt_dec m (Z.sqrt n)); [auto|nia].
Qed.
Theorem C31_isqrt_negative : forall n e w, standard "isqrt" e w -> n < 0 -> crashes (call_on "isqrt" [VNum n]) e w.
Proof.
  intros n e w S N. eapply (crashes_native _ BIsqrt); auto. cbn [builtin_prog arg1].
  destruct (n <? 0) eqn:E; [|lia]. apply runs_panic. split; reflexivity.
Qed.
Theorem C31_isqrt_rejects : forall vs e w, standard "isqrt" e w -> (forall n, vs <> [VNum n]) ->
  rejects (call_on "isqrt" vs) e w.
Proof.
  intros vs e w S N.
  assert (exists er, runs step Inf (builtin_prog BIsqrt vs e) w (Er er) w) as [er R].
  { destruct vs as [|[] [|? ?]]; try (eexists; apply runs_raise_). now destruct (N n). }
  now apply (rejects_native _ BIsqrt _ _ _ er).
Qed.
Example C31_example :
  gives (call_on "isqrt" [VNum (10 ^ 30 - 1)]) global_env demo (VNum (10 ^ 15 - 1)) /\
  crashes (call_on "isqrt" [VNum (-1)]) global_env demo.
Proof.
  split; [exists 5%nat; split; [vm_compute; reflexivity|discriminate]|].
  apply C31_isqrt_negative; [now apply demo_standard|lia].
Qed.
