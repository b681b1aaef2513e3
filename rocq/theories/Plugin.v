(** The esbuild plugin, esbuildplugin/plugin.go. *)
From Verif Require Import Bytes Utf8 Source Lexer Ast Parser Printer Transformer Resolver Compile.

(** What the reporter receives.  [Located] is a *logging.locationError
    (internal/logging/logging.go:43-50), the only error type with a Location
    method (line 76).  [Syntax] is a *lexer.Error around one
    (internal/lexer/lexer.go:580-605): it has Unwrap and Error only.  [Plain] is
    any other error with its text. *)
Inductive perror :=
| Located (s : source) (sp : span) (inner : bytes)
| Syntax (s : source) (sp : span) (inner : bytes)
| Plain (text : bytes).
(** err.Error(); [None] is a panic of locationError.Error. *)
Definition errorText (e : perror) : option bytes :=
  match e with
  | Located s sp inner | Syntax s sp inner => locationErrorString s sp inner
  | Plain text => Some text
  end.

(** api.Location and api.Message of esbuild, the fields that are set. *)
Record location := mkLoc { l_file : bytes; l_column : Z; l_line : Z; l_length : Z; l_text : bytes }.
Record message := mkMessage { m_text : bytes; m_loc : option location }.

(** csscReporter.toEsbuild, plugin.go:25-52: the body of its loop.  [None] is a
    panic. *)
Definition toMessages (e : perror) : option (list message) :=
  match e with
  | Located s sp _ =>
    match lineAndCol s sp, fullLine s sp with
    | Some (_, col), Some lineSpan =>
      match errorText e, slice (src_content s) (sp_start lineSpan) (sp_end lineSpan) with
      | Some text, Some line =>
        Some [mkMessage text (Some (mkLoc (src_path s) col (Z.of_nat (sp_start lineSpan))
                                          (Z.of_nat (sp_end lineSpan) - Z.of_nat (sp_start lineSpan)) line));
              mkMessage text None]
      | _, _ => None
      end
    | _, _ => None
    end
  | _ => match errorText e with Some text => Some [mkMessage text None] | None => None end
  end.
Fixpoint toEsbuild (es : list perror) : option (list message) :=
  match es with
  | [] => Some []
  | e :: r =>
    match toMessages e, toEsbuild r with
    | Some ms, Some rest => Some (ms ++ rest)
    | _, _ => None
    end
  end.

(** The errors of a compilation as the reporter sees them once Compile has
    returned.  The texts of errors from the file system, the resolver and the
    printer are not modelled: [text] gives them. *)
Definition toReport (text : cerror -> bytes) (g : glob) (e : cerror) : option perror :=
  match e with
  | EParse s sp msg => option_map (fun src => Syntax src sp msg) (nth_error (g_srcs g) s)
  | ETransform s r => option_map (fun src => Located src (rp_sp r) (rp_msg r)) (nth_error (g_srcs g) s)
  | e => Some (Plain (text e))
  end.
Fixpoint toReports (text : cerror -> bytes) (g : glob) (es : list cerror) : option (list perror) :=
  match es with
  | [] => Some []
  | e :: r =>
    match toReport text g e, toReports text g r with
    | Some x, Some rest => Some (x :: rest)
    | _, _ => None
    end
  end.

(** The OnLoad callback, plugin.go:78-110, after the call of Compile with
    Entry = [args.Path]: res.Errors, res.Contents or err. *)
Inductive loaded :=
| LoadErrors (ms : list message)
| LoadContents (css : bytes)
| LoadMissing.
Definition onLoad (text : cerror -> bytes) (path : bytes) (g : glob) (fs : files) : option loaded :=
  match g_errors g with
  | _ :: _ =>
    match toReports text g (g_errors g) with
    | Some es => option_map LoadErrors (toEsbuild es)
    | None => None               (* does not happen: see PluginProofs.v *)
    end
  | [] =>
    match lookup path fs with
    | Some css => Some (LoadContents css)
    | None => Some LoadMissing
    end
  end.
