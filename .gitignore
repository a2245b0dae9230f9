*.vo
*.vok
*.vos
*.glob
*.aux
.*.aux
*.d
.lia.cache
.nia.cache
.Makefile.d
.CoqMakefile.d
rocq/Makefile
rocq/Makefile.conf
rocq/.Makefile.d
