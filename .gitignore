*.vo
*.vok
*.vos
*.glob
*.aux
.*.aux
.lia.cache
.nia.cache
.Makefile.d
Makefile.coq*
rocq/Makefile
rocq/Makefile.conf
rocq/.Makefile.d
