(** Property theorems C19, C22, C44: source maps. *)
From Verif Require Import Bytes Utf8 Source LexSpec SourceSpec Ast Parser Vlq VlqSpec Printer PrinterSpec MapProofs JsonSpec JsonProofs Samples.

(** ** C19 *)
(** With a map the output is the output without a map plus one comment whose
    payload contains no star (so it cannot close the comment) and is base64. *)
Theorem C19_map_keeps_css : forall s ns out, print (Some s) ns = Some out ->
  exists css payload mappings, print None ns = Some css /\ out = css ++ mapComment payload /\
    ~ In "*"%byte payload /\ base64Read payload = Some (mappingJson s mappings).
Proof. exact C19_lemma. Qed.
Print Assumptions C19_map_keeps_css.

(** And asking for a map never makes printing fail. *)
Theorem C19_map_total : forall s ns css, hd_error (src_lines s) = Some 0%nat ->
  print None ns = Some css -> exists out, print (Some s) ns = Some out.
Proof. exact print_total. Qed.
Print Assumptions C19_map_total.

(** ** C22 *)
(** Reading the map gives, for every rule and at-rule in output order, where its
    text begins in the output and the line and column of its span, for every
    line table starting with 0. *)
Theorem C22_map_points_at_rules : forall s ns css,
  tableOk s -> print None ns = Some css -> textOk css ->
  Forall (fun m => spanOk (snd m)) (starts [] ns) ->
  exists mappings,
    print (Some s) ns = Some (css ++ mapComment (base64Std (mappingJson s mappings))) /\
    readMappings mappings = Some (map (expected s) (starts [] ns)).
Proof. exact C22_lemma. Qed.
Print Assumptions C22_map_points_at_rules.

(** With the table of C08: the position found by walking the file. *)
Theorem C22_map_positions : forall path content ns css,
  Z.of_nat (length content) < 1073741823 ->
  print None ns = Some css -> textOk css ->
  Forall (fun m => (sp_start (snd m) <= length content)%nat) (starts [] ns) ->
  let s := mkSource path content (lineStarts content) in
  exists mappings,
    print (Some s) ns = Some (css ++ mapComment (base64Std (mappingJson s mappings))) /\
    readMappings mappings = Some (map (fun m =>
      mkMapping (fst (textEnd (fst m))) (snd (textEnd (fst m))) 0
                (fst (position content (sp_start (snd m))) - 1) (snd (position content (sp_start (snd m))) - 1))
      (starts [] ns)).
Proof. exact C22_position_lemma. Qed.
Print Assumptions C22_map_positions.

(** Generated columns count characters, original columns count bytes: in a file
    that is printed unchanged, a rule can be mapped to a different column. *)
Theorem C22_same_unit_refuted : exists content ss mp,
  @parse asciiOnly 0 100 content = ParseOk ss (lineStarts content) /\
  print None (ss_nodes ss) = Some content /\
  In mp (map (expected (mkSource [] content (lineStarts content))) (starts [] (ss_nodes ss))) /\
  m_genLine mp = m_line mp /\ m_genCol mp = 6 /\ m_col mp = 7.
Proof. exact C22_unit_lemma. Qed.
Print Assumptions C22_same_unit_refuted.

(** A two-rule sheet with a media block: three mappings. *)
Example C22_sample :
  let ns := [NRule (mkRule 0 (mkSpan 1 5) (PrSel (mkSpan 1 2, [(mkSpan 1 2, [SType (mkSpan 1 2) (B "a")])])) (mkSpan 2 5)
                      [DRaw (mkSpan 3 4) [LF]]);
             NAt (mkAt 0 (mkSpan 6 20) (B "media") [APIdent (mkSpan 13 14) (B "b")]
                   (Some (BRules (mkSpan 14 20) [mkRule 0 (mkSpan 15 18) (PrKey (mkSpan 15 17) [KIdent (mkSpan 15 17) (B "to")]) (mkSpan 17 18) []])))] in
  let s := mkSource (B "f") (B " a{" ++ [LF] ++ B "}@media b{to{}}") [0; 4]%nat in
  print None ns = Some (B "a{" ++ [LF] ++ B "}@media b{to{}}") /\
  map (expected s) (starts [] ns) = [mkMapping 0 0 0 0 1; mkMapping 1 1 0 1 2; mkMapping 1 10 0 1 11] /\
  readMappings (B "AAAC;CACC,SAAS") = Some (map (expected s) (starts [] ns)).
Proof. vm_compute. auto. Qed.

(** ** C44 *)
(** The payload of the map comment is the base64 of a JSON text in UTF-8, and
    reading it gives the version, the file's path, its content (with bytes
    that belong to no character replaced) and mappings that read as C22 says.
    Missing for the full claim: paths that JSON would have to escape. *)
Theorem C44_map_is_json_partial : forall s ns out, print (Some s) ns = Some out -> plainPath (src_path s) ->
  exists css payload text mappings,
    print None ns = Some css /\ out = css ++ mapComment payload /\ base64Read payload = Some text /\ utf8 text /\
    readJson text = Some (sourceMap (src_path s) (repaired (src_content s)) mappings) /\
    (utf8 (src_content s) -> repaired (src_content s) = src_content s) /\
    (tableOk s -> textOk css -> Forall (fun m => spanOk (snd m)) (starts [] ns) ->
     readMappings mappings = Some (map (expected s) (starts [] ns))).
Proof. exact C44_lemma. Qed.
Print Assumptions C44_map_is_json_partial.
Example C44_sample : plainPath (src_path source44) /\
  mappingJson source44 (B "AAAA") =
    B "{""version"": 3,""file"":""/x/a.css"",""sourceRoot"":"""", ""sources"": [""source.css""], ""sourcesContent"":[""a{b:\""c\u003c\"";}\n"
    ++ [Byte.xc3; Byte.xa9] ++ B "\ufffd""],""names"":[],""mappings"":""AAAA""}" /\
  readJson (mappingJson source44 (B "AAAA")) =
    Some (sourceMap (B "/x/a.css") (B "a{b:""c<"";}" ++ [Byte.x0a; Byte.xc3; Byte.xa9; Byte.xef; Byte.xbf; Byte.xbd]) (B "AAAA")).
Proof. exact C44_sample_lemma. Qed.

(** The path is not escaped: with a quotation mark in it the map is not JSON,
    with a backslash it may be JSON that names another file. *)
Theorem C44_path_refuted :
  (exists out css payload text, print (Some (quotedSource (B "a""b.css"))) [] = Some out /\ print None [] = Some css /\
     out = css ++ mapComment payload /\ base64Read payload = Some text /\ readJson text = None) /\
  (exists out css payload text, print (Some (quotedSource (B "a\b.css"))) [] = Some out /\ print None [] = Some css /\
     out = css ++ mapComment payload /\ base64Read payload = Some text /\
     readJson text = Some (sourceMap (B "a" ++ [Byte.x08] ++ B ".css") (B "a{}") [])).
Proof. exact C44_refuted_lemma. Qed.
Print Assumptions C44_path_refuted.
