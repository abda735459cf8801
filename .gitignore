rocq/.lia.cache
.nia.cache
.lia.cache
.nra.cache
.lia.cache
*.cache
