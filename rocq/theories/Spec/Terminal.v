(** * Terminal: keys and cells of the screen (C64). *)
From Verif.Model Require Import Base Syntax World Prog.
Open Scope list_scope.

(** The special keys and the symbols that stand for them (intro.md, Text User
    Interfaces); two key codes count as backspace. *)
Definition special_keys : list (key * string) :=
  [(KeyCtrlC, "INTR"); (KeyCtrlD, "EOF"); (KeyCtrlL, "CLEAR"); (KeyBackspace, "BSP"); (KeyBackspace2, "BSP");
   (KeyDelete, "DEL"); (KeyDown, "DOWNARROW"); (KeyEnd, "END"); (KeyLeft, "LEFTARROW"); (KeyRight, "RIGHTARROW");
   (KeyUp, "UPARROW"); (KeyEnter, "ENTER"); (KeyEscape, "ESC")]%string.
(** [keystroke evs s]: the first key among the events [evs] is the key of a
    character, and [s] is this character; or a special key, and [s] stands for
    it; or another key or none at all, and [s] is empty. *)
Inductive keystroke : list screen_event -> string -> Prop :=
| stroke_character r evs : keystroke (KeyPressed (KeyRune r) :: evs) r
| stroke_special k s evs : In (k, s) special_keys -> keystroke (KeyPressed k :: evs) s
| stroke_other evs : keystroke (KeyPressed KeyOther :: evs) ""
| stroke_later evs s : keystroke evs s -> keystroke (OtherEvent :: evs) s
| stroke_none : keystroke [] "".

(** The columns a character takes. *)
Definition columns (width : string -> Z) (c : string) : Z := if (width c =? 0)%Z then 1%Z else width c.
(** The characters [cs] written into row [y] from column [x] on: each right of
    the columns of the one before; one without a width sits on a blank. *)
Fixpoint cells (width : string -> Z) (x y : Z) (cs : list string) : list event :=
  match cs with
  | [] => []
  | c :: cs => (if (width c =? 0)%Z then ScreenCell x y " " c else ScreenCell x y c "") ::
               cells width (x + columns width c)%Z y cs
  end.
(** Where the text ends. *)
Definition end_column (width : string -> Z) (x : Z) (cs : list string) : Z :=
  fold_right Z.add x (map (columns width) cs).
(** The events [evs] happen, the first one first. *)
Fixpoint emits (evs : list event) (w : world) : world :=
  match evs with [] => w | ev :: evs => emits evs (emit ev w) end.
