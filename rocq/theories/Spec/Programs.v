(** * Programs: example programs of the project (C84). *)
From Coq Require Import Sorting.Sorted Znumtheory.
From Verif.Model Require Import Base Syntax World Prog Lex Parse Meta Eval Builtins CoreSrc Main.
From Verif.Proofs Require Import Run.
From Verif.Spec Require Import Vocabulary Library Session.
Open Scope list_scope.

Definition text_of (lines : list string) : string := String.concat (str1 ch_lf) lines.
(** examples/fact.l1, lines 1-5. *)
Definition fact_lines : list string :=
  [";; Return the factorial of `n`:";
   "(defn fact (n)";
   "  (if (zero? n)";
   "    1";
   "    (* n (fact (- n 1)))))"]%string.
(** examples/tco.l1, lines 1-15. *)
Definition sum_lines : list string :=
  [";; Highly-recursive examples which showed the need for tail-call";
   ";; optimization.  Before TCO was implemented, these examples would";
   ";; blow the stack.";
   "";
   "(defn sum-to-acc (n acc)";
   "  (cond ((zero? n) acc)";
   "        (t (sum-to-acc (- n 1) (+ n acc)))))";
   "";
   "(defn sum-to-acc-with-let (n acc)";
   "  (let ((_ 1))";
   "    (cond ((zero? n) acc)";
   "          (t (sum-to-acc-with-let (- n 1) (+ n acc))))))";
   "";
   "(defn sum-to (n) (sum-to-acc n 0))";
   "(defn sum-to-with-let (n) (sum-to-acc-with-let n 0))"]%string.
(** examples/primes.l1, lines 1-18 and 24-37. *)
Definition prime_lines : list string :=
  [";; Adapted from SICP Chapter 1.2";
   "";
   "(defn divides? (d x)";
   "  (zero? (rem x d)))";
   "";
   "(defn square (n) (* n n))";
   "";
   "(defn find-divisor (n test-divisor)";
   "  (cond ((> (square test-divisor) n) n)";
   "        ((divides? test-divisor n) test-divisor)";
   "        (t (find-divisor n (+ test-divisor 1)))))";
   "";
   "(defn smallest-divisor (n)";
   "  (find-divisor n 2))";
   "";
   "(defn prime? (n)";
   "  (= n (smallest-divisor n)))";
   "";
   ";; Don't do this with every build -- some numbers take a LONG time to";
   ";; test:";
   ";; (prime? (fuse (randigits 100)))";
   "";
   "(defn helper (ret count n)";
   "  (cond";
   "   ((zero? count) (reverse ret))";
   "   ((prime? n) (helper (cons n ret)";
   "                       (- count 1)";
   "                       (+ 1 n)))";
   "   (t (helper ret count (+ 1 n)))))";
   "";
   "(defn n-primes (num)";
   "  (helper () num 1))"]%string.

(** [after lines w]: state [w] is one in which a new process, on some host, has
    loaded the library and run the program. *)
Definition after (lines : list string) (w : world) : Prop :=
  exists h stdin, program global_env (text_of lines) (loaded h stdin) (Ok VNil) w.

(** The program with a last line (println (f n)). *)
Definition asking (lines : list string) (f : string) (n : Z) : string :=
  text_of (lines ++ ["(println (" ++ f ++ " " ++ str (VNum n) ++ "))"]%string).
(** Running it prints [out] and a newline, and nothing else, and ends with status
    0: whether it is given by -e or in a file, on every host and with every
    standard input. *)
Definition prints_for (lines : list string) (f : string) (n : Z) (out : string) : Prop :=
  forall h stdin o,
    o = Options false false false (asking lines f n) [] \/
    (exists file, o = Options false false false EmptyString [file] /\
       forall time, h_readfile h time file = inr (asking lines f n)) ->
    exists w', process o h stdin (Status 0) w' /\ w_out w' = [Printed (out ++ str1 ch_lf)].

(** [ps] are the first [n] primes in order, where 1 counts as a prime. *)
Definition first_primes (n : nat) (ps : list Z) : Prop :=
  length ps = n /\ StronglySorted Z.lt ps /\
  (forall p, In p ps -> p = 1%Z \/ prime p) /\
  (forall p q, In p ps -> (1 <= q < p)%Z -> q = 1%Z \/ prime q -> In q ps).
