(** Generated by tools/conformance.py from the unit tests of src/translator/pipeline.rs and src/translator/table/multipass.rs: do not edit. *)
From Verif Require Import Base RuleModel TranslationModel ConfBase.

(** src/translator/table/multipass.rs: correct
    correct ''corect'' ''correct''
    foobar => foobar
    corect => correct
    🐂 => 🐂
 *)
Example multipass_correct : cf_multipass Forward Pre
    [[99; 111; 114; 114; 101; 99; 116; 32; 34; 99; 111; 114; 101; 99; 116; 34; 32; 34; 99; 111; 114; 114; 101; 99; 116; 34]%N]
    [([102; 111; 111; 98; 97; 114]%N, [102; 111; 111; 98; 97; 114]%N);
     ([99; 111; 114; 101; 99; 116]%N, [99; 111; 114; 114; 101; 99; 116]%N);
     ([128002]%N, [128002]%N)] = true.
Proof. vm_compute. reflexivity. Qed.
(** src/translator/table/multipass.rs: pass2
    pass2 @123 @12
    ⠇ => ⠃
    ⠙ => ⠙
    🐂 => 🐂
 *)
Example multipass_pass2 : cf_multipass Forward Post1
    [[112; 97; 115; 115; 50; 32; 64; 49; 50; 51; 32; 64; 49; 50]%N]
    [([10247]%N, [10243]%N);
     ([10265]%N, [10265]%N);
     ([128002]%N, [128002]%N)] = true.
Proof. vm_compute. reflexivity. Qed.
(** src/translator/table/multipass.rs: pass3
    pass3 @123 @12
    ⠇ => ⠃
    ⠙ => ⠙
    🐂 => 🐂
 *)
Example multipass_pass3 : cf_multipass Forward Post2
    [[112; 97; 115; 115; 51; 32; 64; 49; 50; 51; 32; 64; 49; 50]%N]
    [([10247]%N, [10243]%N);
     ([10265]%N, [10265]%N);
     ([128002]%N, [128002]%N)] = true.
Proof. vm_compute. reflexivity. Qed.
(** src/translator/table/multipass.rs: pass4
    pass4 @123 @12
    ⠇ => ⠃
    ⠙ => ⠙
    🐂 => 🐂
 *)
Example multipass_pass4 : cf_multipass Forward Post3
    [[112; 97; 115; 115; 52; 32; 64; 49; 50; 51; 32; 64; 49; 50]%N]
    [([10247]%N, [10243]%N);
     ([10265]%N, [10265]%N);
     ([128002]%N, [128002]%N)] = true.
Proof. vm_compute. reflexivity. Qed.
(** src/translator/table/multipass.rs: pass3_collapse_doubled_cell
    noback pass3 @12-12 @12
    ⠃⠃ => ⠃
    ⠃⠙⠃ => ⠃⠙⠃
 *)
Example multipass_pass3_collapse_doubled_cell : cf_multipass Forward Post2
    [[110; 111; 98; 97; 99; 107; 32; 112; 97; 115; 115; 51; 32; 64; 49; 50; 45; 49; 50; 32; 64; 49; 50]%N]
    [([10243; 10243]%N, [10243]%N);
     ([10243; 10265; 10243]%N, [10243; 10265; 10243]%N)] = true.
Proof. vm_compute. reflexivity. Qed.
(** src/translator/table/multipass.rs: effects
    pass2 @123 @123#1=1
    pass2 #1=1@1 @6
    pass2 @456 @456#1=0
    ⠁⠁⠇⠁⠁⠸⠁⠁ => ⠁⠁⠇⠠⠠⠸⠁⠁
    🐂 => 🐂
 *)
Example multipass_effects : cf_multipass Forward Post1
    [[112; 97; 115; 115; 50; 32; 64; 49; 50; 51; 32; 64; 49; 50; 51; 35; 49; 61; 49]%N;
     [112; 97; 115; 115; 50; 32; 35; 49; 61; 49; 64; 49; 32; 64; 54]%N;
     [112; 97; 115; 115; 50; 32; 64; 52; 53; 54; 32; 64; 52; 53; 54; 35; 49; 61; 48]%N]
    [([10241; 10241; 10247; 10241; 10241; 10296; 10241; 10241]%N, [10241; 10241; 10247; 10272; 10272; 10296; 10241; 10241]%N);
     ([128002]%N, [128002]%N)] = true.
Proof. vm_compute. reflexivity. Qed.
(** src/translator/pipeline.rs: correct
    always foo 123
    always bar 456
    noback correct ''baz'' ''bar''
    space \s 0
    baz => ⠸
    foobaz => ⠇⠸
    foobar => ⠇⠸
       => ⠀⠀
    🐂 => ⠳⠭⠂⠋⠲⠴⠆
 *)
Example pipeline_correct : cf_pipeline Forward
    [[97; 108; 119; 97; 121; 115; 32; 102; 111; 111; 32; 49; 50; 51]%N;
     [97; 108; 119; 97; 121; 115; 32; 98; 97; 114; 32; 52; 53; 54]%N;
     [110; 111; 98; 97; 99; 107; 32; 99; 111; 114; 114; 101; 99; 116; 32; 34; 98; 97; 122; 34; 32; 34; 98; 97; 114; 34]%N;
     [115; 112; 97; 99; 101; 32; 92; 115; 32; 48]%N]
    [([98; 97; 122]%N, [10296]%N);
     ([102; 111; 111; 98; 97; 122]%N, [10247; 10296]%N);
     ([102; 111; 111; 98; 97; 114]%N, [10247; 10296]%N);
     ([32; 32]%N, [10240; 10240]%N);
     ([128002]%N, [10291; 10285; 10242; 10251; 10290; 10292; 10246]%N)] = true.
Proof. vm_compute. reflexivity. Qed.
(** src/translator/pipeline.rs: pass2
    always foo 123
    always bar 456
    noback pass2 @123 @1
    space \s 0
    foo => ⠁
    foobar => ⠁⠸
       => ⠀⠀
    🐂 => ⠳⠭⠂⠋⠲⠴⠆
 *)
Example pipeline_pass2 : cf_pipeline Forward
    [[97; 108; 119; 97; 121; 115; 32; 102; 111; 111; 32; 49; 50; 51]%N;
     [97; 108; 119; 97; 121; 115; 32; 98; 97; 114; 32; 52; 53; 54]%N;
     [110; 111; 98; 97; 99; 107; 32; 112; 97; 115; 115; 50; 32; 64; 49; 50; 51; 32; 64; 49]%N;
     [115; 112; 97; 99; 101; 32; 92; 115; 32; 48]%N]
    [([102; 111; 111]%N, [10241]%N);
     ([102; 111; 111; 98; 97; 114]%N, [10241; 10296]%N);
     ([32; 32]%N, [10240; 10240]%N);
     ([128002]%N, [10291; 10285; 10242; 10251; 10290; 10292; 10246]%N)] = true.
Proof. vm_compute. reflexivity. Qed.
(** src/translator/pipeline.rs: pass2_with_capture
    lowercase o 135
    lowercase ύ 5-13456
    sign ΄ 5
    attribute accent ΄
    noback pass2 @135[%accent]@13456 *@136
    o => ⠕
    oύ => ⠕⠐⠥⠽
 *)
Example pipeline_pass2_with_capture : cf_pipeline Forward
    [[108; 111; 119; 101; 114; 99; 97; 115; 101; 32; 111; 32; 49; 51; 53]%N;
     [108; 111; 119; 101; 114; 99; 97; 115; 101; 32; 973; 32; 53; 45; 49; 51; 52; 53; 54]%N;
     [115; 105; 103; 110; 32; 900; 32; 53]%N;
     [97; 116; 116; 114; 105; 98; 117; 116; 101; 32; 97; 99; 99; 101; 110; 116; 32; 900]%N;
     [110; 111; 98; 97; 99; 107; 32; 112; 97; 115; 115; 50; 32; 64; 49; 51; 53; 91; 37; 97; 99; 99; 101; 110; 116; 93; 64; 49; 51; 52; 53; 54; 32; 42; 64; 49; 51; 54]%N]
    [([111]%N, [10261]%N);
     ([111; 973]%N, [10261; 10256; 10277; 10301]%N)] = true.
Proof. vm_compute. reflexivity. Qed.
(** src/translator/pipeline.rs: pass3
    always foo 123
    always bar 456
    noback pass2 @123 @78
    noback pass3 @78 @1
    space \s 0
    foo => ⠁
    foobar => ⠁⠸
       => ⠀⠀
    🐂 => ⠳⠭⠂⠋⠲⠴⠆
 *)
Example pipeline_pass3 : cf_pipeline Forward
    [[97; 108; 119; 97; 121; 115; 32; 102; 111; 111; 32; 49; 50; 51]%N;
     [97; 108; 119; 97; 121; 115; 32; 98; 97; 114; 32; 52; 53; 54]%N;
     [110; 111; 98; 97; 99; 107; 32; 112; 97; 115; 115; 50; 32; 64; 49; 50; 51; 32; 64; 55; 56]%N;
     [110; 111; 98; 97; 99; 107; 32; 112; 97; 115; 115; 51; 32; 64; 55; 56; 32; 64; 49]%N;
     [115; 112; 97; 99; 101; 32; 92; 115; 32; 48]%N]
    [([102; 111; 111]%N, [10241]%N);
     ([102; 111; 111; 98; 97; 114]%N, [10241; 10296]%N);
     ([32; 32]%N, [10240; 10240]%N);
     ([128002]%N, [10291; 10285; 10242; 10251; 10290; 10292; 10246]%N)] = true.
Proof. vm_compute. reflexivity. Qed.
(** src/translator/pipeline.rs: pass4
    always foo 123
    always bar 456
    noback pass2 @123 @67
    noback pass3 @67 @78
    noback pass4 @78 @1
    space \s 0
    foo => ⠁
    foobar => ⠁⠸
       => ⠀⠀
    🐂 => ⠳⠭⠂⠋⠲⠴⠆
 *)
Example pipeline_pass4 : cf_pipeline Forward
    [[97; 108; 119; 97; 121; 115; 32; 102; 111; 111; 32; 49; 50; 51]%N;
     [97; 108; 119; 97; 121; 115; 32; 98; 97; 114; 32; 52; 53; 54]%N;
     [110; 111; 98; 97; 99; 107; 32; 112; 97; 115; 115; 50; 32; 64; 49; 50; 51; 32; 64; 54; 55]%N;
     [110; 111; 98; 97; 99; 107; 32; 112; 97; 115; 115; 51; 32; 64; 54; 55; 32; 64; 55; 56]%N;
     [110; 111; 98; 97; 99; 107; 32; 112; 97; 115; 115; 52; 32; 64; 55; 56; 32; 64; 49]%N;
     [115; 112; 97; 99; 101; 32; 92; 115; 32; 48]%N]
    [([102; 111; 111]%N, [10241]%N);
     ([102; 111; 111; 98; 97; 114]%N, [10241; 10296]%N);
     ([32; 32]%N, [10240; 10240]%N);
     ([128002]%N, [10291; 10285; 10242; 10251; 10290; 10292; 10246]%N)] = true.
Proof. vm_compute. reflexivity. Qed.
