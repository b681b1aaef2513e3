(** What the messages for esbuild should say. *)
From Verif Require Import Bytes Utf8 Source LexSpec SourceSpec Plugin.

(** An error that points into its file, whose line table is right. *)
Definition pointed (s : source) (sp : span) : Prop :=
  src_lines s = lineStarts (src_content s) /\ (sp_start sp <= sp_end sp)%nat /\ (sp_end sp <= length (src_content s))%nat /\
  Z.of_nat (length (src_content s)) < 2147483647.
Definition wellPointed (e : perror) : Prop :=
  match e with Located s sp _ | Syntax s sp _ => pointed s sp | Plain _ => True end.
(** The line number of an error. *)
Definition lineOfError (s : source) (sp : span) : Z := fst (position (src_content s) (sp_start sp)).
(** C41 for one error: one message, with the line number if there is one. *)
Definition reportedOnce (e : perror) (ms : list message) : Prop :=
  exists m, ms = [m] /\
  match e with
  | Located s sp _ | Syntax s sp _ => exists l, m_loc m = Some l /\ l_line l = lineOfError s sp
  | Plain _ => True
  end.
(** What happens instead: syntax errors have no location; the others appear
    twice, and l_line is the offset of the line, not its number. *)
Definition rendered (e : perror) (ms : list message) : Prop :=
  exists text, errorText e = Some text /\
  match e with
  | Located s sp _ =>
    let content := src_content s in
    let line := lineOf content (sp_start sp) in
    ms = [mkMessage text (Some (mkLoc (src_path s) (snd (position content (sp_start sp)))
                                      (Z.of_nat (sp_start sp - length (lineBefore content (sp_start sp)))) (Z.of_nat (length line)) line));
          mkMessage text None]
  | _ => ms = [mkMessage text None]
  end.
