(** What a source map in the output of Compile should say. *)
From Verif Require Import Bytes Utf8 Source SourceSpec LexSpec Lexer Ast Printer PrinterSpec.

(** Where a node and the rules in its block are in the file. *)
Definition places (nd : node) : list span :=
  match nd with
  | NRule r => [r_sp r]
  | NAt a => ar_sp a :: match ar_block a with Some (BRules _ rs) => map r_sp rs | _ => [] end
  end.

(** [out] is the text of [nds] with a source map of the file at [path]; the map
    has one entry for each rule of [nds], in order: from its line and column in
    the text (in characters) to its line and column in the file (in bytes). *)
Definition mapped (path content : bytes) (nds : list node) (out : bytes) : Prop := exists css mappings,
  print None nds = Some css /\
  out = css ++ mapComment (base64Std (mappingJson (mkSource path content (lineStarts content)) mappings)) /\
  readMappings mappings = Some (map (fun m =>
    mkMapping (fst (textEnd (fst m))) (snd (textEnd (fst m))) 0
              (fst (position content (sp_start (snd m))) - 1) (snd (position content (sp_start (snd m))) - 1))
    (starts [] nds)).

(** The entry [m] of a map leads to no rule of the file. *)
Definition astray (content : bytes) (nds : list node) (m : mapping) : Prop :=
  forall sp, In sp (flat_map places nds) -> position content (sp_start sp) <> (m_line m + 1, m_col m + 1)%Z.
