*.vo
*.vok
*.vos
*.glob
*.aux
.lia.cache
.nia.cache
Makefile.coq*
rocq/Makefile
rocq/Makefile.conf
rocq/.Makefile.d
