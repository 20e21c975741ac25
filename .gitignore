*.vo
*.vos
*.vok
*.glob
*.aux
.lia.cache
.nia.cache
.Makefile.d
Makefile.conf
