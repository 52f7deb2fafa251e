(** The feature additional_log_info of the log: solver/log.rs. *)
From Verif Require Import Base Num Linalg Residuals Iteratives UserModel Jacobian Solver F64 Text Display.
Open Scope string_scope.

(** What the operating system, the clock and the compiler tell
    [SolverLog::new]: log.rs:22-23 (the two times, by [to_rfc2822]), 38, 41, 44
    (whoami) and 51 (rustc_version_runtime). Their texts are arbitrary here. *)
Record runner_info := mkRunnerInfo {
  ri_distro : string; ri_device : string; ri_user : string; ri_rustc : string;
  ri_utc : string; ri_local : string
}.

(** log.rs:20-33; [content] is the text so far. *)
Definition write_time (ri : runner_info) (content : string) : string :=
  content ++ "Simulation start:" ++ nl ++
  "  - UTC:   " ++ ri_utc ri ++ nl ++
  "  - Local: " ++ ri_local ri ++ nl.
(** log.rs:35-46. *)
Definition write_user_infos (ri : runner_info) (content : string) : string :=
  content ++ "OS: " ++ ri_distro ri ++ nl ++
  "Host: " ++ ri_device ri ++ nl ++
  "Username: " ++ ri_user ri ++ nl.
(** log.rs:48-53. *)
Definition write_rustc_info (ri : runner_info) (content : string) : string :=
  content ++ "Rust version: " ++ ri_rustc ri ++ nl.

(** log.rs:59-87, [SolverLog::new]; [None] is the crate built without the feature.
    The file is created by this call: [LHeader] is the first entry of a log. *)
Definition log_header (info : option runner_info) (version : string) : string :=
  let content := "" ++ "Runner informations" ++ nl in
  let content := content ++ "===================" ++ nl ++ nl in
  let content := match info with
                 | Some ri => write_rustc_info ri (write_user_infos ri content)
                 | None => content
                 end in
  let content := content ++ "newton_rootfinder version: " in
  let content := content ++ version in
  let content := content ++ nl in
  let content := match info with Some ri => write_time ri content | None => content end in
  content ++ nl.

(** The successive writes, log.rs:59-92, with or without the feature. *)
Fixpoint display_log_with (show : f64 -> string) (info : option runner_info) (version iteratives : string)
  (l : list (log_entry f64)) : outcome string :=
  match l with
  | [] => Ret ""
  | e :: l' =>
      t <- match e with
           | LHeader => Ret (log_header info version)
           | _ => display_entry show version iteratives e
           end ;;
      rest <- display_log_with show info version iteratives l' ;;
      Ret (t ++ rest)
  end.
