*.vo
*.vok
*.vos
*.glob
.*.aux
*.d
.lia.cache
.nia.cache
/rocq/Makefile
/rocq/Makefile.conf
/rocq/.Makefile.d
.CoqMakefile.d
